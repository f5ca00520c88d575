(** Every method of the parser treats related states alike: one lemma for each method of
    Parser.v, in its order. *)
From Coq Require Import String List NArith Bool Arith Lia.
From Verif Require Import Runes Token Tokenizer ListUtil Ast Ext Heap Classes Prog Parser Units CaseSpec SimFacts SimHeap SimMain.
Import ListNotations.
Local Open Scope list_scope.

Section WithUnicode.
Context {U : Unicode} {UOK : UnicodeOk U}.

Lemma is_unit_identifier_sim t1 t2 : tsim t1 t2 -> psim (is_unit_identifier t1) (is_unit_identifier t2).
Proof.
  intros. unfold is_unit_identifier. go. apply psim_ret.
  destruct a as [[? []]|], b as [[? []]|]; inv_norm; try reflexivity; try match goal with H : norm _ = norm _ |- _ => discriminate H end.
Qed.
Lemma is_namespace_identifier_sim t1 t2 : tsim t1 t2 -> psim (is_namespace_identifier t1) (is_namespace_identifier t2).
Proof.
  intros. unfold is_namespace_identifier. go. apply psim_ret.
  destruct a as [[? []]|], b as [[? []]|]; inv_norm; try reflexivity; try match goal with H : norm _ = norm _ |- _ => discriminate H end.
Qed.
Lemma new_ident_ref_sim t1 t2 : tsim t1 t2 -> psim (new_ident_ref t1) (new_ident_ref t2).
Proof. intros. unfold new_ident_ref. go. Qed.
Hint Resolve is_unit_identifier_sim is_namespace_identifier_sim new_ident_ref_sim : psim.
Lemma parse_qual_id_sim : psim parse_qual_id parse_qual_id.
Proof. unfold parse_qual_id. go. Qed.
Hint Resolve parse_qual_id_sim : psim.
Lemma parse_ident_sim : psim parse_ident parse_ident.
Proof. unfold parse_ident. go. Qed.
Hint Resolve parse_ident_sim : psim.
Lemma parse_ident_list_by_sim f1 f2 t : f1 <= f2 -> resp t -> psim (parse_ident_list_by f1 t) (parse_ident_list_by f2 t).
Proof. intros. unfold parse_ident_list_by. go. Qed.
Hint Resolve parse_ident_list_by_sim : psim.
Lemma parse_manifest_constant_sim t1 t2 : tsim t1 t2 -> psim (parse_manifest_constant t1) (parse_manifest_constant t2).
Proof. intros. unfold parse_manifest_constant. go. Qed.
Hint Resolve parse_manifest_constant_sim : psim.
Lemma parse_string_factor_sim t1 t2 skip : tsim t1 t2 -> (skip = true -> t_type t1 <> Identifier) ->
  psim (parse_string_factor t1 skip) (parse_string_factor t2 skip).
Proof.
  intros T I. unfold parse_string_factor. apply psim_if; [cond| |go]. intro B.
  assert (t_type t1 <> Identifier) by (destruct skip; [now apply I|cbn [orb] in B; typed]). go.
Qed.
Lemma parse_number_factor_sim t1 t2 skip : tsim t1 t2 -> (skip = true -> t_type t1 <> Identifier) ->
  psim (parse_number_factor t1 skip) (parse_number_factor t2 skip).
Proof. apply parse_string_factor_sim. Qed.
Hint Extern 1 (psim (parse_string_factor _ _) _) => apply parse_string_factor_sim; [assumption | intro; first [discriminate | typed]] : psim.
Hint Extern 1 (psim (parse_number_factor _ _) _) => apply parse_number_factor_sim; [assumption | intro; first [discriminate | typed]] : psim.
Lemma heading_ident_sim h1 h2 : norm h1 = norm h2 -> norm (heading_ident h1) = norm (heading_ident h2).
Proof.
  destruct h1 as [f1 i1 p1 r1], h2 as [f2 i2 p2 r2]. intro H.
  exact (f_equal (fun h => match h with Heading _ i _ _ => i end) H).
Qed.
Lemma nonempty_sim {A} {NA : Norm A} (l1 l2 : list A) : norm l1 = norm l2 -> norm (nonempty l1) = norm (nonempty l2).
Proof. destruct l1, l2; intro H; try discriminate H; [reflexivity|]. exact (f_equal Some H). Qed.
Lemma const_expr_of_qual_id_sim q1 q2 : norm q1 = norm q2 -> norm (const_expr_of_qual_id q1) = norm (const_expr_of_qual_id q2).
Proof. intro Q. unfold const_expr_of_qual_id. leaf. Qed.

(** Both sides make related recursive calls; the right side may go deeper. *)
Definition rsim (R1 R2 : recs) : Prop :=
  r_fuel R1 <= r_fuel R2 /\ psim (r_expr R1) (r_expr R2) /\ psim (r_factor R1) (r_factor R2) /\
  psim (r_type R1) (r_type R2) /\ (forall t, resp t -> psim (r_fields R1 t) (r_fields R2 t)) /\
  psim (r_stmt R1) (r_stmt R2) /\ psim (r_block R1) (r_block R2).

Section Methods.
Context (R1 R2 : recs) (RS : rsim R1 R2).
Lemma fuel_sim : r_fuel R1 <= r_fuel R2. Proof. apply RS. Qed.
Lemma r_expr_sim : psim (r_expr R1) (r_expr R2). Proof. apply RS. Qed.
Lemma r_factor_sim : psim (r_factor R1) (r_factor R2). Proof. apply RS. Qed.
Lemma r_type_sim : psim (r_type R1) (r_type R2). Proof. apply RS. Qed.
Lemma r_fields_sim t : resp t -> psim (r_fields R1 t) (r_fields R2 t). Proof. apply RS. Qed.
Lemma r_stmt_sim : psim (r_stmt R1) (r_stmt R2). Proof. apply RS. Qed.
Lemma r_block_sim : psim (r_block R1) (r_block R2). Proof. apply RS. Qed.
#[local] Hint Resolve fuel_sim r_expr_sim r_factor_sim r_type_sim r_fields_sim r_stmt_sim r_block_sim : psim.

Lemma type_is_psim q t1 t2 : norm t1 = norm t2 ->
  psim (OnHeap (fun _ h => match type_is (r_fuel R1) h q t1 with Some b => HOk b h | None => HStuck end))
       (OnHeap (fun _ h => match type_is (r_fuel R2) h q t2 with Some b => HOk b h | None => HStuck end)).
Proof.
  intro T. apply psim_onheap. intros c h1 h2 E. destruct (type_is (r_fuel R1) h1 q t1) as [b|] eqn:B; [|exact I].
  rewrite (type_is_sim _ _ _ _ _ _ _ _ fuel_sim E T B). now split.
Qed.
Lemma find_property_psim her1 her2 mem1 mem2 n1 n2 p : norm her1 = norm her2 -> norm mem1 = norm mem2 -> same_letters n1 n2 ->
  psim (OnHeap (fun _ h => match find_property (r_fuel R1) h her1 (Some mem1) n1 p with None => HStuck | Some r => HOk r h end))
       (OnHeap (fun _ h => match find_property (r_fuel R2) h her2 (Some mem2) n2 p with None => HStuck | Some r => HOk r h end)).
Proof.
  intros A B L. apply psim_onheap. intros c h1 h2 E.
  destruct (find_property (r_fuel R1) h1 her1 (Some mem1) n1 p) as [r|] eqn:F; [|exact I].
  destruct (find_property_sim _ (r_fuel R2) _ h2 _ her2 (Some mem1) (Some mem2) _ n2 _ _ fuel_sim E A (f_equal Some B) (proj1 L) F) as (r2 & -> & N).
  now split.
Qed.
Hint Resolve type_is_psim : psim.
Hint Extern 1 (psim (OnHeap (fun _ h => match find_property _ _ _ _ _ _ with _ => _ end)) _) => apply find_property_psim; [leaf | leaf | letters] : psim.

Lemma parse_qual_ids_sim : psim (parse_qual_ids R1) (parse_qual_ids R2).
Proof. intros; unfold parse_qual_ids; go. Qed.
#[local] Hint Resolve parse_qual_ids_sim : psim.
Lemma expr_list_step_sim (terminator : predicator) (l1 l2 : list expr) : resp terminator -> norm l1 = norm l2 -> psim (expr_list_step R1 terminator l1) (expr_list_step R2 terminator l2).
Proof. intros; unfold expr_list_step; go. Qed.
#[local] Hint Resolve expr_list_step_sim : psim.
Lemma parse_expr_list_sim (terminator : predicator) : resp terminator -> psim (parse_expr_list R1 terminator) (parse_expr_list R2 terminator).
Proof. intros; unfold parse_expr_list; go. Qed.
#[local] Hint Resolve parse_expr_list_sim : psim.
Lemma designator_step_sim (items1 items2 : list ditem) : norm items1 = norm items2 -> psim (designator_step R1 items1) (designator_step R2 items2).
Proof. intros; unfold designator_step; go. Qed.
#[local] Hint Resolve designator_step_sim : psim.
Lemma parse_designator_sim : psim (parse_designator R1) (parse_designator R2).
Proof. intros; unfold parse_designator; go. Qed.
#[local] Hint Resolve parse_designator_sim : psim.
Lemma parse_set_element_sim : psim (parse_set_element R1) (parse_set_element R2).
Proof. intros; unfold parse_set_element; go. Qed.
#[local] Hint Resolve parse_set_element_sim : psim.
Lemma parse_set_constructor_sim : psim (parse_set_constructor R1) (parse_set_constructor R2).
Proof. intros; unfold parse_set_constructor; go. Qed.
#[local] Hint Resolve parse_set_constructor_sim : psim.
Lemma parse_cast_sim t01 t02 (d : dref) : tsim t01 t02 -> psim (parse_cast R1 t01 d) (parse_cast R2 t02 d).
Proof. intros; unfold parse_cast; go. Qed.
#[local] Hint Resolve parse_cast_sim : psim.
Lemma parse_designator_factor_sim : psim (parse_designator_factor R1) (parse_designator_factor R2).
Proof. intros; unfold parse_designator_factor; go. Qed.
#[local] Hint Resolve parse_designator_factor_sim : psim.
Lemma parse_factor_sim : psim (parse_factor R1) (parse_factor R2).
Proof. intros; unfold parse_factor; go. Qed.
#[local] Hint Resolve parse_factor_sim : psim.
Lemma term_step_sim (l1 l2 : list (gostring * factor)) : norm l1 = norm l2 -> psim (term_step R1 l1) (term_step R2 l2).
Proof. intros; unfold term_step; go. Qed.
#[local] Hint Resolve term_step_sim : psim.
Lemma parse_term_sim : psim (parse_term R1) (parse_term R2).
Proof. intros; unfold parse_term; go. Qed.
#[local] Hint Resolve parse_term_sim : psim.
Lemma simple_step_sim (l1 l2 : list (gostring * term)) : norm l1 = norm l2 -> psim (simple_step R1 l1) (simple_step R2 l2).
Proof. intros; unfold simple_step; go. Qed.
#[local] Hint Resolve simple_step_sim : psim.
Lemma parse_simple_expression_sim : psim (parse_simple_expression R1) (parse_simple_expression R2).
Proof. intros; unfold parse_simple_expression; go. Qed.
#[local] Hint Resolve parse_simple_expression_sim : psim.
Lemma expression_step_sim (l1 l2 : list (gostring * sexpr)) : norm l1 = norm l2 -> psim (expression_step R1 l1) (expression_step R2 l2).
Proof. intros; unfold expression_step; go. Qed.
#[local] Hint Resolve expression_step_sim : psim.
Lemma parse_expression_sim : psim (parse_expression R1) (parse_expression R2).
Proof. intros; unfold parse_expression; go. Qed.
#[local] Hint Resolve parse_expression_sim : psim.
Lemma parse_const_expr_sim : psim (parse_const_expr R1) (parse_const_expr R2).
Proof. intros; unfold parse_const_expr; go. Qed.
#[local] Hint Resolve parse_const_expr_sim : psim.
Lemma parse_type_id_with_unit_sim : psim parse_type_id_with_unit parse_type_id_with_unit.
Proof. intros; unfold parse_type_id_with_unit; go. Qed.
#[local] Hint Resolve parse_type_id_with_unit_sim : psim.
Lemma parse_type_id_without_unit_sim : psim parse_type_id_without_unit parse_type_id_without_unit.
Proof. intros; unfold parse_type_id_without_unit; go. Qed.
#[local] Hint Resolve parse_type_id_without_unit_sim : psim.
Lemma parse_type_id_sim : psim parse_type_id parse_type_id.
Proof. intros; unfold parse_type_id; go. Qed.
#[local] Hint Resolve parse_type_id_sim : psim.
Lemma parse_embedded_sim (k : ekind) (required : bool) : psim (parse_embedded k required) (parse_embedded k required).
Proof. intros; unfold parse_embedded; go. Qed.
#[local] Hint Resolve parse_embedded_sim : psim.
Lemma parse_subrange_for_identifier_sim : psim (parse_subrange_for_identifier R1) (parse_subrange_for_identifier R2).
Proof. intros; unfold parse_subrange_for_identifier, const_expr_of_qual_id; go. Qed.
#[local] Hint Resolve parse_subrange_for_identifier_sim : psim.
Lemma parse_type_for_identifier_sim : psim (parse_type_for_identifier R1) (parse_type_for_identifier R2).
Proof. intros; unfold parse_type_for_identifier; go. Qed.
#[local] Hint Resolve parse_type_for_identifier_sim : psim.
Lemma parse_pointer_type_sim : psim parse_pointer_type parse_pointer_type.
Proof. intros; unfold parse_pointer_type; go. Qed.
#[local] Hint Resolve parse_pointer_type_sim : psim.
Lemma parse_const_subrange_sim : psim (parse_const_subrange R1) (parse_const_subrange R2).
Proof. intros; unfold parse_const_subrange; go. Qed.
#[local] Hint Resolve parse_const_subrange_sim : psim.
Lemma parse_enum_element_sim : psim (parse_enum_element R1) (parse_enum_element R2).
Proof. intros; unfold parse_enum_element; go. Qed.
#[local] Hint Resolve parse_enum_element_sim : psim.
Lemma enum_step_sim (l1 l2 : list (ident * option expr)) : norm l1 = norm l2 -> psim (enum_step R1 l1) (enum_step R2 l2).
Proof. intros; unfold enum_step; go. Qed.
#[local] Hint Resolve enum_step_sim : psim.
Lemma parse_enumerated_type_sim : psim (parse_enumerated_type R1) (parse_enumerated_type R2).
Proof. intros; unfold parse_enumerated_type; go. Qed.
#[local] Hint Resolve parse_enumerated_type_sim : psim.
Lemma parse_string_of_string_type_sim : psim (parse_string_of_string_type R1) (parse_string_of_string_type R2).
Proof. intros; unfold parse_string_of_string_type; go. Qed.
#[local] Hint Resolve parse_string_of_string_type_sim : psim.
Lemma parse_type_as_ordinal_sim : psim (parse_type_as_ordinal R1) (parse_type_as_ordinal R2).
Proof. intros; unfold parse_type_as_ordinal; go. Qed.
#[local] Hint Resolve parse_type_as_ordinal_sim : psim.
Lemma parse_array_type_sim : psim (parse_array_type R1) (parse_array_type R2).
Proof. intros; unfold parse_array_type; go. Qed.
#[local] Hint Resolve parse_array_type_sim : psim.
Lemma parse_set_type_sim : psim (parse_set_type R1) (parse_set_type R2).
Proof. intros; unfold parse_set_type; go. Qed.
#[local] Hint Resolve parse_set_type_sim : psim.
Lemma parse_file_type_sim : psim parse_file_type parse_file_type.
Proof. intros; unfold parse_file_type; go. Qed.
#[local] Hint Resolve parse_file_type_sim : psim.
Lemma parse_field_decl_sim (terminator : predicator) : resp terminator -> psim (parse_field_decl R1 terminator) (parse_field_decl R2 terminator).
Proof. intros; unfold parse_field_decl; go. Qed.
#[local] Hint Resolve parse_field_decl_sim : psim.
Lemma parse_rec_variant_sim : psim (parse_rec_variant R1) (parse_rec_variant R2).
Proof. intros; unfold parse_rec_variant; go. Qed.
#[local] Hint Resolve parse_rec_variant_sim : psim.
Lemma rec_variants_step_sim (l1 l2 : list recvariant) : norm l1 = norm l2 -> psim (rec_variants_step R1 l1) (rec_variants_step R2 l2).
Proof. intros; unfold rec_variants_step; go. Qed.
#[local] Hint Resolve rec_variants_step_sim : psim.
Lemma parse_variant_section_sim : psim (parse_variant_section R1) (parse_variant_section R2).
Proof. intros; unfold parse_variant_section; go. Qed.
#[local] Hint Resolve parse_variant_section_sim : psim.
Lemma field_decls_step_sim (terminator : predicator) (l1 l2 : list fielddecl) : resp terminator -> norm l1 = norm l2 -> psim (field_decls_step R1 terminator l1) (field_decls_step R2 terminator l2).
Proof. intros; unfold field_decls_step; go. Qed.
#[local] Hint Resolve field_decls_step_sim : psim.
Lemma parse_field_list_sim (terminator : predicator) : resp terminator -> psim (parse_field_list R1 terminator) (parse_field_list R2 terminator).
Proof. intros; unfold parse_field_list; go. Qed.
#[local] Hint Resolve parse_field_list_sim : psim.
Lemma parse_rec_type_sim : psim (parse_rec_type R1) (parse_rec_type R2).
Proof. intros; unfold parse_rec_type; go. Qed.
#[local] Hint Resolve parse_rec_type_sim : psim.
Lemma parse_struc_type_sim : psim (parse_struc_type R1) (parse_struc_type R2).
Proof. intros; unfold parse_struc_type; go. Qed.
#[local] Hint Resolve parse_struc_type_sim : psim.
Lemma parse_parameter_sim (end_ : string) : psim (parse_parameter R1 end_) (parse_parameter R2 end_).
Proof. intros; unfold parse_parameter; go. Qed.
#[local] Hint Resolve parse_parameter_sim : psim.
Lemma parse_formal_parm_sim (end_ : string) : psim (parse_formal_parm R1 end_) (parse_formal_parm R2 end_).
Proof. intros; unfold parse_formal_parm; go. Qed.
#[local] Hint Resolve parse_formal_parm_sim : psim.
Lemma parse_formal_parameters_sim (start_ : string) (end_ : string) : psim (parse_formal_parameters R1 start_ end_) (parse_formal_parameters R2 start_ end_).
Proof. intros; unfold parse_formal_parameters; go. Qed.
#[local] Hint Resolve parse_formal_parameters_sim : psim.
Lemma parse_procedure_type_sim : psim (parse_procedure_type R1) (parse_procedure_type R2).
Proof. intros; unfold parse_procedure_type; go. Qed.
#[local] Hint Resolve parse_procedure_type_sim : psim.
Lemma parse_function_heading_sim : psim (parse_function_heading R1) (parse_function_heading R2).
Proof. intros; unfold parse_function_heading; go. Qed.
#[local] Hint Resolve parse_function_heading_sim : psim.
Lemma parse_class_heritage_sim : psim (parse_class_heritage R1) (parse_class_heritage R2).
Proof. intros; unfold parse_class_heritage; go. Qed.
#[local] Hint Resolve parse_class_heritage_sim : psim.
Lemma parse_class_field_sim : psim (parse_class_field R1) (parse_class_field R2).
Proof. intros; unfold parse_class_field; go. Qed.
#[local] Hint Resolve parse_class_field_sim : psim.
Lemma class_fields_step_sim (l1 l2 : list (list ident * typ)) : norm l1 = norm l2 -> psim (class_fields_step R1 l1) (class_fields_step R2 l2).
Proof. intros; unfold class_fields_step; go. Qed.
#[local] Hint Resolve class_fields_step_sim : psim.
Lemma parse_class_field_list_sim : psim (parse_class_field_list R1) (parse_class_field_list R2).
Proof. intros; unfold parse_class_field_list; go. Qed.
#[local] Hint Resolve parse_class_field_list_sim : psim.
Lemma method_directives_step_sim (l1 l2 : list gostring) : norm l1 = norm l2 -> psim (method_directives_step l1) (method_directives_step l2).
Proof. intros; unfold method_directives_step; go. match goal with T : tsim ?a ?b |- _ => rewrite !(proj2 (tsim_value_letters _ _ T)) end. go. Qed.
#[local] Hint Resolve method_directives_step_sim : psim.
Lemma parse_class_method_directive_list_sim : psim (parse_class_method_directive_list R1) (parse_class_method_directive_list R2).
Proof. intros; unfold parse_class_method_directive_list; go. Qed.
#[local] Hint Resolve parse_class_method_directive_list_sim : psim.
Lemma parse_constructor_heading_sim : psim (parse_constructor_heading R1) (parse_constructor_heading R2).
Proof. intros; unfold parse_constructor_heading; go. Qed.
#[local] Hint Resolve parse_constructor_heading_sim : psim.
Lemma parse_destructor_heading_sim : psim parse_destructor_heading parse_destructor_heading.
Proof. intros; unfold parse_destructor_heading; go. Qed.
#[local] Hint Resolve parse_destructor_heading_sim : psim.
Lemma parse_class_method_sim : psim (parse_class_method R1) (parse_class_method R2).
Proof. intros; unfold parse_class_method; go. Qed.
#[local] Hint Resolve parse_class_method_sim : psim.
Lemma class_methods_step_sim (l1 l2 : list cmethod) : norm l1 = norm l2 -> psim (class_methods_step R1 l1) (class_methods_step R2 l2).
Proof. intros; unfold class_methods_step; go. Qed.
#[local] Hint Resolve class_methods_step_sim : psim.
Lemma parse_class_method_list_sim : psim (parse_class_method_list R1) (parse_class_method_list R2).
Proof. intros; unfold parse_class_method_list; go. Qed.
#[local] Hint Resolve parse_class_method_list_sim : psim.
Lemma parse_property_interface_sim : psim (parse_property_interface R1) (parse_property_interface R2).
Proof. intros; unfold parse_property_interface; go. Qed.
#[local] Hint Resolve parse_property_interface_sim : psim.
Lemma find_member_decl_sim (her1 her2 : option (list typeid)) (mem1 mem2 : list csection) name1 name2 : norm her1 = norm her2 -> norm mem1 = norm mem2 -> same_letters name1 name2 -> psim (find_member_decl R1 her1 mem1 name1) (find_member_decl R2 her2 mem2 name2).
Proof. 
  intros A B L. apply psim_onheap. intros c h1 h2 E.
  destruct (find_member (r_fuel R1) h1 her1 (Some mem1) name1 true) as [r|] eqn:F; [|exact I].
  destruct (find_member_sim _ (r_fuel R2) _ h2 _ her2 (Some mem1) (Some mem2) _ name2 _ _ fuel_sim E A (f_equal Some B) (proj1 L) F) as (r2 & -> & N).
  destruct r as [d1|], r2 as [d2|]; try discriminate N; [|now split].
  rewrite (norm_length _ _ (nh_decls _ _ E)). split; [reflexivity|]. apply with_decls_sim; [exact E|].
  apply norm_app; [now apply nh_decls|]. apply norm_some in N. exact (f_equal (fun x => [x]) N).
 Qed.
#[local] Hint Extern 1 (psim (find_member_decl _ _ _ _) _) => apply find_member_decl_sim; [leaf | leaf | letters] : psim.
Lemma parse_accessor_sim (word : string) (her1 her2 : option (list typeid)) (mem1 mem2 : list csection) : norm her1 = norm her2 -> norm mem1 = norm mem2 -> psim (parse_accessor R1 word her1 mem1) (parse_accessor R2 word her2 mem2).
Proof. intros; unfold parse_accessor; go. Qed.
#[local] Hint Resolve parse_accessor_sim : psim.
Lemma parse_stored_sim (her1 her2 : option (list typeid)) (mem1 mem2 : list csection) : norm her1 = norm her2 -> norm mem1 = norm mem2 -> psim (parse_stored R1 her1 mem1) (parse_stored R2 her2 mem2).
Proof. intros; unfold parse_stored; go. Qed.
#[local] Hint Resolve parse_stored_sim : psim.
Lemma parse_class_property_sim (her1 her2 : option (list typeid)) (mem1 mem2 : list csection) : norm her1 = norm her2 -> norm mem1 = norm mem2 -> psim (parse_class_property R1 her1 mem1) (parse_class_property R2 her2 mem2).
Proof. intros; unfold parse_class_property; go. apply psim_ret. unfold sim, sim_norm.
  match goal with |- norm (if inherits_from ?p1 ?q1 then _ else _) = norm (if inherits_from ?p2 ?q2 then _ else _) =>
    rewrite (inherits_sim p1 p2 q1 q2); [destruct (inherits_from p2 q2)| |] end; leaf. Qed.
#[local] Hint Resolve parse_class_property_sim : psim.
Lemma class_props_step_sim (her1 her2 : option (list typeid)) (mem1 mem2 : list csection) (l1 l2 : list cprop) : norm her1 = norm her2 -> norm mem1 = norm mem2 -> norm l1 = norm l2 -> psim (class_props_step R1 her1 mem1 l1) (class_props_step R2 her2 mem2 l2).
Proof. intros; unfold class_props_step; go. Qed.
#[local] Hint Resolve class_props_step_sim : psim.
Lemma parse_class_property_list_sim (her1 her2 : option (list typeid)) (mem1 mem2 : list csection) : norm her1 = norm her2 -> norm mem1 = norm mem2 -> psim (parse_class_property_list R1 her1 mem1) (parse_class_property_list R2 her2 mem2).
Proof. intros; unfold parse_class_property_list; go. Qed.
#[local] Hint Resolve parse_class_property_list_sim : psim.
Lemma parse_class_member_section_sim (her1 her2 : option (list typeid)) (secs1 secs2 : list csection) : norm her1 = norm her2 -> norm secs1 = norm secs2 -> psim (parse_class_member_section R1 her1 secs1) (parse_class_member_section R2 her2 secs2).
Proof. intros; unfold parse_class_member_section; go. apply parse_class_property_list_sim; leaf. Qed.
#[local] Hint Resolve parse_class_member_section_sim : psim.
Lemma class_sections_step_sim (her1 her2 : option (list typeid)) (secs1 secs2 : list csection) : norm her1 = norm her2 -> norm secs1 = norm secs2 -> psim (class_sections_step R1 her1 secs1) (class_sections_step R2 her2 secs2).
Proof. intros; unfold class_sections_step; go. Qed.
#[local] Hint Resolve class_sections_step_sim : psim.
Lemma parse_class_member_sections_sim (her1 her2 : option (list typeid)) : norm her1 = norm her2 -> psim (parse_class_member_sections R1 her1) (parse_class_member_sections R2 her2).
Proof. intros; unfold parse_class_member_sections; go. Qed.
#[local] Hint Resolve parse_class_member_sections_sim : psim.
Lemma parse_class_type_sim : psim (parse_class_type R1) (parse_class_type R2).
Proof. intros; unfold parse_class_type; go. Qed.
#[local] Hint Resolve parse_class_type_sim : psim.
Lemma parse_class_type_or_class_ref_sim : psim (parse_class_type_or_class_ref R1) (parse_class_type_or_class_ref R2).
Proof. intros; unfold parse_class_type_or_class_ref; go.
  - apply psim_onheap. intros c h1 h2 E. rewrite (norm_length _ _ (nh_fwds _ _ E)). split; [reflexivity|].
    apply with_fwds_sim; [exact E|]. apply norm_app; [now apply nh_fwds|reflexivity].
  - apply psim_new_type_id; [reflexivity|leaf|].
    match goal with |- match ?a with _ => _ end = match ?b with _ => _ end => destruct a as [[? []]|], b as [[? []]|] end;
      inv_norm; try reflexivity; try match goal with H : norm _ = norm _ |- _ => discriminate H end. Qed.
#[local] Hint Resolve parse_class_type_or_class_ref_sim : psim.
Lemma parse_type_sim : psim (parse_type R1) (parse_type R2).
Proof. intros; unfold parse_type; go. Qed.
#[local] Hint Resolve parse_type_sim : psim.
Lemma declare_type_sim (i1 i2 : ident) (ty1 ty2 : typ) : same_letters (i_name i1) (i_name i2) -> norm i1 = norm i2 -> norm ty1 = norm ty2 -> psim (declare_type i1 ty1) (declare_type i2 ty2).
Proof. intros L I T; unfold declare_type; go.
  match goal with H : norm (TClass ?x ?y) = norm (TClass ?u ?v) |- _ => set (ty1 := TClass x y) in *; set (ty2 := TClass u v) in * end.
  apply psim_onheap. intros c h1 h2 E.
  assert (E1 : norm (with_fwds (set_nth actual (Some ty1) (h_fwds h1)) h1) = norm (with_fwds (set_nth actual (Some ty2) (h_fwds h2)) h2)).
  { apply with_fwds_sim; [exact E|]. apply norm_set_nth; [exact (f_equal Some T)|now apply nh_fwds]. }
  rewrite (norm_length _ _ (nh_decls _ _ E1)).
  match goal with |- context [ctx_overwrite ?a c (i_name i1) ?d] => match goal with |- context [ctx_overwrite ?b c (i_name i2) d] =>
    assert (E2 : norm a = norm b); [apply with_decls_sim; [exact E1|]; apply norm_app; [now apply nh_decls|]|] end end.
  { change ([norm (mkDecl i1 (NType ty1))] = [norm (mkDecl i2 (NType ty2))]). f_equal. unfold norm, norm_decl.
    change (mkDecl (norm i1) (NType (norm ty1)) = mkDecl (norm i2) (NType (norm ty2))). now rewrite I, T. }
  match goal with |- context [ctx_overwrite ?a c (i_name i1) ?d] => match goal with |- context [ctx_overwrite ?b c (i_name i2) d] =>
    pose proof (ctx_overwrite_sim a b c _ _ d E2 (proj1 L)) as O; destruct (ctx_overwrite a c (i_name i1) d), (ctx_overwrite b c (i_name i2) d) end end;
    try discriminate O; [|exact Logic.I]. split; [reflexivity|]. now apply norm_some. Qed.

Lemma parse_type_decl_sim : psim (parse_type_decl R1) (parse_type_decl R2).
Proof. intros; unfold parse_type_decl; go. apply declare_type_sim; [letters|leaf|leaf]. Qed.
#[local] Hint Resolve parse_type_decl_sim : psim.
Lemma section_head_sim (required : bool) (k : predicator) : resp k -> psim (section_head required k) (section_head required k).
Proof. intros; unfold section_head; go. Qed.
#[local] Hint Resolve section_head_sim : psim.
Lemma type_section_step_sim (l1 l2 : list typedecl) : norm l1 = norm l2 -> psim (type_section_step R1 l1) (type_section_step R2 l2).
Proof. intros; unfold type_section_step; go. Qed.
#[local] Hint Resolve type_section_step_sim : psim.
Lemma parse_type_section_sim (required : bool) : psim (parse_type_section R1 required) (parse_type_section R2 required).
Proof. intros; unfold parse_type_section; go. Qed.
#[local] Hint Resolve parse_type_section_sim : psim.
Lemma parse_constant_decl_sim : psim (parse_constant_decl R1) (parse_constant_decl R2).
Proof. intros; unfold parse_constant_decl; go. Qed.
#[local] Hint Resolve parse_constant_decl_sim : psim.
Lemma const_section_step_sim (l1 l2 : list constdecl) : norm l1 = norm l2 -> psim (const_section_step R1 l1) (const_section_step R2 l2).
Proof. intros; unfold const_section_step; go. Qed.
#[local] Hint Resolve const_section_step_sim : psim.
Lemma parse_const_section_sim (required : bool) : psim (parse_const_section R1 required) (parse_const_section R2 required).
Proof. intros; unfold parse_const_section; go. Qed.
#[local] Hint Resolve parse_const_section_sim : psim.
Lemma parse_var_decl_sim : psim (parse_var_decl R1) (parse_var_decl R2).
Proof. intros; unfold parse_var_decl; go. Qed.
#[local] Hint Resolve parse_var_decl_sim : psim.
Lemma var_section_step_sim (l1 l2 : list vardecl) : norm l1 = norm l2 -> psim (var_section_step R1 l1) (var_section_step R2 l2).
Proof. intros; unfold var_section_step; go. Qed.
#[local] Hint Resolve var_section_step_sim : psim.
Lemma parse_var_section_sim (required : bool) : psim (parse_var_section R1 required) (parse_var_section R2 required).
Proof. intros; unfold parse_var_section; go. Qed.
#[local] Hint Resolve parse_var_section_sim : psim.
Lemma parse_threadvar_decl_sim : psim (parse_threadvar_decl R1) (parse_threadvar_decl R2).
Proof. intros; unfold parse_threadvar_decl; go. Qed.
#[local] Hint Resolve parse_threadvar_decl_sim : psim.
Lemma threadvar_section_step_sim (l1 l2 : list threadvardecl) : norm l1 = norm l2 -> psim (threadvar_section_step R1 l1) (threadvar_section_step R2 l2).
Proof. intros; unfold threadvar_section_step; go. Qed.
#[local] Hint Resolve threadvar_section_step_sim : psim.
Lemma parse_threadvar_section_sim (required : bool) : psim (parse_threadvar_section R1 required) (parse_threadvar_section R2 required).
Proof. intros; unfold parse_threadvar_section; go. Qed.
#[local] Hint Resolve parse_threadvar_section_sim : psim.
Lemma stmt_list_step_sim (terminator : predicator) (l1 l2 : list stmt) : resp terminator -> norm l1 = norm l2 -> psim (stmt_list_step R1 terminator l1) (stmt_list_step R2 terminator l2).
Proof. intros; unfold stmt_list_step; go. Qed.
#[local] Hint Resolve stmt_list_step_sim : psim.
Lemma parse_stmt_list_sim (terminator : predicator) : resp terminator -> psim (parse_stmt_list R1 terminator) (parse_stmt_list R2 terminator).
Proof. intros; unfold parse_stmt_list; go. Qed.
#[local] Hint Resolve parse_stmt_list_sim : psim.
Lemma parse_compound_stmt_sim : psim (parse_compound_stmt R1) (parse_compound_stmt R2).
Proof. intros; unfold parse_compound_stmt; go. Qed.
#[local] Hint Resolve parse_compound_stmt_sim : psim.
Lemma parse_designator_statement_sim : psim (parse_designator_statement R1) (parse_designator_statement R2).
Proof. intros; unfold parse_designator_statement; go. Qed.
#[local] Hint Resolve parse_designator_statement_sim : psim.
Lemma parse_inherited_sim : psim parse_inherited parse_inherited.
Proof. intros; unfold parse_inherited; go. Qed.
#[local] Hint Resolve parse_inherited_sim : psim.
Lemma parse_goto_sim : psim parse_goto parse_goto.
Proof. intros; unfold parse_goto; go. Qed.
#[local] Hint Resolve parse_goto_sim : psim.
Lemma asm_step_sim (u1 u2 : unit) : norm u1 = norm u2 -> psim (asm_step u1) (asm_step u2).
Proof. intros; unfold asm_step; go. Qed.
#[local] Hint Resolve asm_step_sim : psim.
Lemma parse_asm_sim : psim (parse_asm R1) (parse_asm R2).
Proof. intros; unfold parse_asm; go. Qed.
#[local] Hint Resolve parse_asm_sim : psim.
Lemma parse_if_sim : psim (parse_if R1) (parse_if R2).
Proof. intros; unfold parse_if; go. Qed.
#[local] Hint Resolve parse_if_sim : psim.
Lemma parse_case_label_sim : psim (parse_case_label R1) (parse_case_label R2).
Proof. intros; unfold parse_case_label; go. Qed.
#[local] Hint Resolve parse_case_label_sim : psim.
Lemma case_labels_step_sim (l1 l2 : list (expr * option expr)) : norm l1 = norm l2 -> psim (case_labels_step R1 l1) (case_labels_step R2 l2).
Proof. intros; unfold case_labels_step; go. Qed.
#[local] Hint Resolve case_labels_step_sim : psim.
Lemma parse_case_selector_sim : psim (parse_case_selector R1) (parse_case_selector R2).
Proof. intros; unfold parse_case_selector; go. Qed.
#[local] Hint Resolve parse_case_selector_sim : psim.
Lemma case_selectors_step_sim (l1 l2 : list (list (expr * option expr) * stmt)) : norm l1 = norm l2 -> psim (case_selectors_step R1 l1) (case_selectors_step R2 l2).
Proof. intros; unfold case_selectors_step; go. Qed.
#[local] Hint Resolve case_selectors_step_sim : psim.
Lemma parse_case_sim : psim (parse_case R1) (parse_case R2).
Proof. intros; unfold parse_case; go. Qed.
#[local] Hint Resolve parse_case_sim : psim.
Lemma parse_repeat_sim : psim (parse_repeat R1) (parse_repeat R2).
Proof. intros; unfold parse_repeat; go. Qed.
#[local] Hint Resolve parse_repeat_sim : psim.
Lemma parse_while_sim : psim (parse_while R1) (parse_while R2).
Proof. intros; unfold parse_while; go. Qed.
#[local] Hint Resolve parse_while_sim : psim.
Lemma parse_for_sim : psim (parse_for R1) (parse_for R2).
Proof. intros; unfold parse_for; go. Qed.
#[local] Hint Resolve parse_for_sim : psim.
Lemma parse_with_sim : psim (parse_with R1) (parse_with R2).
Proof. intros; unfold parse_with; go. Qed.
#[local] Hint Resolve parse_with_sim : psim.
Lemma parse_raise_sim : psim (parse_raise R1) (parse_raise R2).
Proof. intros; unfold parse_raise; go. Qed.
#[local] Hint Resolve parse_raise_sim : psim.
Lemma parse_handler_sim : psim (parse_handler R1) (parse_handler R2).
Proof. intros; unfold parse_handler; go. Qed.
#[local] Hint Resolve parse_handler_sim : psim.
Lemma handlers_step_sim (l1 l2 : list (option ident * typ * stmt)) : norm l1 = norm l2 -> psim (handlers_step R1 l1) (handlers_step R2 l2).
Proof. intros; unfold handlers_step; go. Qed.
#[local] Hint Resolve handlers_step_sim : psim.
Lemma parse_exception_block_sim : psim (parse_exception_block R1) (parse_exception_block R2).
Proof. intros; unfold parse_exception_block; go. Qed.
#[local] Hint Resolve parse_exception_block_sim : psim.
Lemma parse_try_sim : psim (parse_try R1) (parse_try R2).
Proof. intros; unfold parse_try; go. Qed.
#[local] Hint Resolve parse_try_sim : psim.
Lemma parse_statement_body_sim : psim (parse_statement_body R1) (parse_statement_body R2).
Proof. intros; unfold parse_statement_body; go. Qed.
#[local] Hint Resolve parse_statement_body_sim : psim.
Lemma parse_statement_sim : psim (parse_statement R1) (parse_statement R2).
Proof. intros; unfold parse_statement; go. Qed.
#[local] Hint Resolve parse_statement_sim : psim.
Lemma parse_external_options_sim : psim parse_external_options parse_external_options.
Proof. intros; unfold parse_external_options; go. Qed.
#[local] Hint Resolve parse_external_options_sim : psim.
Lemma directives_step_sim (st1 st2 : list gostring * option extopts) : norm st1 = norm st2 -> psim (directives_step st1) (directives_step st2).
Proof. intros; unfold directives_step; go. Qed.
#[local] Hint Resolve directives_step_sim : psim.
Lemma parse_function_directives_sim : psim (parse_function_directives R1) (parse_function_directives R2).
Proof. intros; unfold parse_function_directives; go. Qed.
#[local] Hint Resolve parse_function_directives_sim : psim.
Lemma parse_optional_directives_sim : psim (parse_optional_directives R1) (parse_optional_directives R2).
Proof. intros; unfold parse_optional_directives; go. Qed.
#[local] Hint Resolve parse_optional_directives_sim : psim.
Lemma parse_exported_heading_sim : psim (parse_exported_heading R1) (parse_exported_heading R2).
Proof. intros; unfold parse_exported_heading; go. apply psim_set, one_decl. now apply heading_ident_sim. Qed.
#[local] Hint Resolve parse_exported_heading_sim : psim.
Lemma parse_procedure_decl_section_sim : psim (parse_procedure_decl_section R1) (parse_procedure_decl_section R2).
Proof. intros; unfold parse_procedure_decl_section; go. apply psim_set, one_decl. now apply heading_ident_sim. Qed.
#[local] Hint Resolve parse_procedure_decl_section_sim : psim.
Lemma parse_label_decl_section_sim : psim parse_label_decl_section parse_label_decl_section.
Proof. intros; unfold parse_label_decl_section; go. Qed.
#[local] Hint Resolve parse_label_decl_section_sim : psim.
Lemma parse_decl_section_sim : psim (parse_decl_section R1) (parse_decl_section R2).
Proof. intros; unfold parse_decl_section; go. Qed.
#[local] Hint Resolve parse_decl_section_sim : psim.
Lemma decl_sections_step_sim (l1 l2 : list declsection) : norm l1 = norm l2 -> psim (decl_sections_step R1 l1) (decl_sections_step R2 l2).
Proof. intros; unfold decl_sections_step; go. Qed.
#[local] Hint Resolve decl_sections_step_sim : psim.
Lemma parse_decl_sections_sim : psim (parse_decl_sections R1) (parse_decl_sections R2).
Proof. intros; unfold parse_decl_sections; go. apply psim_ret. now apply nonempty_sim. Qed.
#[local] Hint Resolve parse_decl_sections_sim : psim.
Lemma parse_exports_item_sim : psim (parse_exports_item R1) (parse_exports_item R2).
Proof. intros; unfold parse_exports_item; go. Qed.
#[local] Hint Resolve parse_exports_item_sim : psim.
Lemma parse_exports_stmt_sim : psim (parse_exports_stmt R1) (parse_exports_stmt R2).
Proof. intros; unfold parse_exports_stmt; go. Qed.
#[local] Hint Resolve parse_exports_stmt_sim : psim.
Lemma exports_step_sim (l1 l2 : list (list exportsitem)) : norm l1 = norm l2 -> psim (exports_step R1 l1) (exports_step R2 l2).
Proof. intros; unfold exports_step; go. Qed.
#[local] Hint Resolve exports_step_sim : psim.
Lemma parse_exports_stmts_sim : psim (parse_exports_stmts R1) (parse_exports_stmts R2).
Proof. intros; unfold parse_exports_stmts; go. apply psim_ret. now apply nonempty_sim. Qed.
#[local] Hint Resolve parse_exports_stmts_sim : psim.
Lemma parse_block_sim : psim (parse_block R1) (parse_block R2).
Proof. intros; unfold parse_block; go. apply psim_ret.
  match goal with |- sim (Block _ (match ?x with _ => _ end) _) (Block _ (match ?y with _ => _ end) _) => destruct x, y end; inv_norm; leaf. Qed.
#[local] Hint Resolve parse_block_sim : psim.
End Methods.

(** The knot, with at least as much fuel on the right *)
Theorem recs_at_sim n : forall m, n <= m -> rsim (recs_at n) (recs_at m).
Proof.
  induction n as [|n IH]; intros m L.
  - repeat split; try (intros; apply psim_nofuel). destruct m; cbn [recs_at r_fuel]; lia.
  - destruct m as [|m]; [lia|]. assert (RS : rsim (recs_at n) (recs_at m)) by (apply IH; lia).
    cbn [recs_at]. unfold rsim. cbn [r_fuel r_expr r_factor r_type r_fields r_stmt r_block].
    split; [lia|]. split; [now apply parse_expression_sim|]. split; [now apply parse_factor_sim|]. split; [now apply parse_type_sim|].
    split; [intros; now apply parse_field_list_sim|]. split; [now apply parse_statement_sim|now apply parse_block_sim].
Qed.
End WithUnicode.
