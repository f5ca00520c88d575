(** References that are set lead to declarations of the names written: one lemma for each
    method of Parser.v, in its order. *)
From Coq Require Import String List NArith Bool Arith Lia.
From Verif Require Import ListUtil Runes Token Tokenizer LexShape Ast Ext ExtMain Heap Classes MapSpec MapFacts MapMain Prog Parser RunFacts RefSpec RefFacts.
Import ListNotations.
Local Open Scope list_scope.

Create HintDb tie discriminated.
Ltac red_m := cbn [expr_m sexpr_m term_m factor_m desig_m ditem_m typ_m fieldlist_m fielddecl_m variantsection_m recvariant_m
  formalparm_m heading_m csection_m cmethod_m cheading_m cprop_m stmt_m sbody_m declsection_m block_m intfdecl_m
  identref_m qualid_m cstored_m cdefault_m exports_m typedecl_m constdecl_m vardecl_m threadvardecl_m
  td_type cd_type cd_expr vd_type vd_expr tv_type ex_name ex_index
  q_ns q_ident ir_ident ir_ref opt flat_map app fst snd]; cbv beta delta [none node_m identref_m qualid_m exports_m typedecl_m constdecl_m vardecl_m threadvardecl_m]; cbn [opt flat_map app fst snd q_ns q_ident ir_ident ir_ref td_type cd_type cd_expr vd_type vd_expr tv_type ex_name ex_index].
Ltac sub := red_m; rewrite ?flat_map_app; red_m; intros ?m; repeat progress (cbn [In]; rewrite ?in_app_iff); tauto.
Ltac mem := red_m; repeat progress (cbn [In]; rewrite ?in_app_iff); tauto.
Ltac leaf := lazymatch goal with
  | |- tied _ (match _ with _ => _ end) _ => fail
  | |- tied _ (until_list _ _ _ _) _ => apply tied_list; intro; solve [auto with tie nocore]
  | |- tied _ (OnHeap _) _ => first [solve [auto with tie nocore] | apply tied_pure; intros ? ?;
      repeat (match goal with |- context [match ?x with _ => _ end] => lazymatch x with context [match _ with _ => _ end] => fail | _ => destruct x end end; cbv beta iota); solve [auto]]
  | _ => solve [auto with tie nocore]
  end.
Ltac tie := repeat first
  [ match goal with
    | |- tied _ (Bind (Ret _) _) _ => apply tied_bind_ret; cbv beta iota
    | |- tied _ (Bind (Bind _ _) _) _ => apply tied_assoc
    | |- tied _ (Bind (new_type_id _ _ _) _) _ => apply tied_bind_type_id; [first [left; reflexivity|right; mem]|intros ? ?]
    | |- tied _ (Bind (FailAt _) _) _ => apply tied_bind_failat
    | |- tied _ (Bind (Fail _) _) _ => apply tied_bind_fail
    | |- tied _ (Bind Crash _) _ => apply tied_bind_crash
    | |- tied _ (let _ := _ in _) _ => cbv zeta
    | |- tied _ (Bind (let _ := _ in _) _) _ => cbv zeta
    end
  | leaf
  | lazymatch goal with
    | |- tied _ (Bind (match _ with _ => _ end) _) _ => fail
    | |- tied _ (Bind _ _) _ => eapply tied_bind; [leaf|intro; red_m]
    end
  | match goal with
    | |- tied _ (Ret (if ?x then _ else _)) _ => destruct x
    | |- tied _ (Ret _) _ => apply tied_ret; solve [sub]
    | |- tied _ (match ?x with _ => _ end) _ => destruct x
    | |- tied _ (Bind (match ?x with _ => _ end) _) _ => destruct x
    | |- tied _ (Attempt _) _ => apply tied_attempt
    | |- tied _ (Scoped _) _ => apply tied_scoped
    | |- tied _ (Traced _) _ => apply tied_traced
    | |- tied _ (PostScope _) _ => apply tied_postscope
    end ].
(** A loop, as the whole of a method *)
Ltac lp L := first [eapply tied_loop0; [intro; apply L|reflexivity]|eapply tied_until0; [intro; apply L|reflexivity]].

Section WithUnicode.
Context {U : Unicode}.

#[local] Opaque tied.
#[local] Hint Constants Opaque : tie.
#[local] Hint Resolve tied_next tied_Cur tied_failat tied_fail tied_crash tied_nofuel tied_runpost
  tied_validate tied_cur tied_is tied_nexttok tied_expect tied_expect_next tied_expect_or_fail
  tied_get_raw tied_get_value tied_node tied_get_node_raw tied_get_node_value tied_get_node_name tied_set : tie.
Lemma t_is_unit_identifier G (t : token) : tied G (is_unit_identifier t) none.
Proof. unfold is_unit_identifier; tie. Qed.
#[local] Hint Resolve t_is_unit_identifier : tie.
Lemma t_is_namespace_identifier G (t : token) : tied G (is_namespace_identifier t) none.
Proof. unfold is_namespace_identifier; tie. Qed.
#[local] Hint Resolve t_is_namespace_identifier : tie.
Lemma t_new_ident_ref G (t : token) : tied G (new_ident_ref t) identref_m.
Proof. unfold new_ident_ref; tie. Qed.
#[local] Hint Resolve t_new_ident_ref : tie.
Lemma t_uses_item_unit G (a : nat) : tied G (uses_item_unit a) none.
Proof. unfold uses_item_unit; tie. Qed.
#[local] Hint Resolve t_uses_item_unit : tie.
Lemma t_unit_get G a t : tied G (unit_get a (value t)) (fun d => [MName (new_ident t) d]).
Proof.
  unfold unit_get. apply tied_heap. intros ns c h Gd O. destruct (nth_error (h_units h) a) as [o|]; [|exact I].
  destruct (dget h (un_map o) (value t)) as [|d|] eqn:E; [| |exact I];
    exists ns; (split; [apply later_refl|]); (split; [exact Gd|]); repeat constructor.
  cbn [ok]. eapply declares_alike; [eapply dget_declares; eauto|apply value_alike].
Qed.
Lemma t_program_get G a t : tied G (program_get a (value t)) (fun d => [MName (new_ident t) d]).
Proof.
  unfold program_get. apply tied_heap. intros ns c h Gd O. destruct (nth_error (h_progs h) a) as [o|]; [|exact I].
  destruct (dget h (pr_map o) (value t)) as [|d|] eqn:E; [| |exact I];
    exists ns; (split; [apply later_refl|]); (split; [exact Gd|]); repeat constructor.
  cbn [ok]. eapply declares_alike; [eapply dget_declares; eauto|apply value_alike].
Qed.
#[local] Hint Resolve t_unit_get t_program_get : tie.
Lemma t_parse_qual_id G : tied G (parse_qual_id) qualid_m.
Proof. unfold parse_qual_id; tie. Qed.
#[local] Hint Resolve t_parse_qual_id : tie.
Lemma t_parse_ident G : tied G (parse_ident) none.
Proof. unfold parse_ident; tie. Qed.
#[local] Hint Resolve t_parse_ident : tie.
Lemma t_parse_ident_list_by G fuel te : tied G (parse_ident_list_by fuel te) none.
Proof.
  unfold parse_ident_list_by. eapply tied_bind; [apply tied_list; intros; apply t_parse_ident|]. intros l. tie.
Qed.
#[local] Hint Resolve t_parse_ident_list_by : tie.
Lemma t_parse_manifest_constant G (t : token) : tied G (parse_manifest_constant t) factor_m.
Proof. unfold parse_manifest_constant; tie. Qed.
#[local] Hint Resolve t_parse_manifest_constant : tie.
Lemma t_parse_string_factor G (t : token) (b : bool) : tied G (parse_string_factor t b) none.
Proof. unfold parse_string_factor; tie. Qed.
#[local] Hint Resolve t_parse_string_factor : tie.
Lemma t_parse_number_factor G (t : token) (b : bool) : tied G (parse_number_factor t b) none.
Proof. unfold parse_number_factor; tie. Qed.
#[local] Hint Resolve t_parse_number_factor : tie.
Section Methods.
Context (R : recs).
Record recs_tied : Prop := {
  rt_expr : forall G, tied G (r_expr R) expr_m;
  rt_factor : forall G, tied G (r_factor R) factor_m;
  rt_type : forall G, tied G (r_type R) typ_m;
  rt_fields : forall t G, tied G (r_fields R t) fieldlist_m;
  rt_stmt : forall G, tied G (r_stmt R) stmt_m;
  rt_block : forall G, tied G (r_block R) block_m }.
Context (RT : recs_tied).
Lemma t_r_expr G : tied G (r_expr R) expr_m. Proof. apply RT. Qed.
Lemma t_r_factor G : tied G (r_factor R) factor_m. Proof. apply RT. Qed.
Lemma t_r_type G : tied G (r_type R) typ_m. Proof. apply RT. Qed.
Lemma t_r_fields G t : tied G (r_fields R t) fieldlist_m. Proof. apply RT. Qed.
Lemma t_r_stmt G : tied G (r_stmt R) stmt_m. Proof. apply RT. Qed.
Lemma t_r_block G : tied G (r_block R) block_m. Proof. apply RT. Qed.
#[local] Hint Resolve t_r_expr t_r_factor t_r_type t_r_fields t_r_stmt t_r_block : tie.
Lemma t_parse_qual_ids G : tied G (parse_qual_ids R) (flat_map qualid_m).
Proof. unfold parse_qual_ids; tie. Qed.
#[local] Hint Resolve t_parse_qual_ids : tie.
Lemma t_expr_list_step G (te : predicator) (l : list expr) : tied ((flat_map expr_m) l ++ G) (expr_list_step R te l) (fun r => match r with inl y => (flat_map expr_m) y | inr y => (flat_map expr_m) y end).
Proof. unfold expr_list_step; tie. Qed.
Lemma t_parse_expr_list G (te : predicator) : tied G (parse_expr_list R te) (flat_map expr_m).
Proof. unfold parse_expr_list; tie; lp t_expr_list_step. Qed.
#[local] Hint Resolve t_parse_expr_list : tie.
Lemma t_designator_step G (l : list ditem) : tied ((flat_map ditem_m) l ++ G) (designator_step R l) (fun r => match r with inl y => (flat_map ditem_m) y | inr y => (flat_map ditem_m) y end).
Proof. unfold designator_step; tie. Qed.
Lemma t_parse_designator G : tied G (parse_designator R) desig_m.
Proof. unfold parse_designator; tie; (eapply tied_bind; [lp t_designator_step|intro; red_m]); tie. Qed.
#[local] Hint Resolve t_parse_designator : tie.
Lemma t_parse_set_element G : tied G (parse_set_element R) (fun x => match x with (e, o) => expr_m e ++ opt expr_m o end).
Proof. unfold parse_set_element; tie. Qed.
#[local] Hint Resolve t_parse_set_element : tie.
Lemma t_parse_set_constructor G : tied G (parse_set_constructor R) factor_m.
Proof. unfold parse_set_constructor; tie. Qed.
#[local] Hint Resolve t_parse_set_constructor : tie.
Lemma t_parse_cast G t0 d : In (MName (new_ident t0) (Some d)) G -> tied G (parse_cast R t0 d) (opt factor_m).
Proof. intros H. unfold parse_cast. apply tied_attempt. apply tied_bind_type_id; [now right|]. intros r _. tie. Qed.
Lemma t_parse_designator_factor G : tied G (parse_designator_factor R) factor_m.
Proof. unfold parse_designator_factor; tie. Qed.
#[local] Hint Resolve t_parse_designator_factor : tie.
Lemma t_parse_factor G : tied G (parse_factor R) factor_m.
Proof. unfold parse_factor; tie; (eapply tied_bind; [apply t_parse_cast; mem|intro; red_m]); tie. Qed.
#[local] Hint Resolve t_parse_factor : tie.
Lemma t_term_step G (l : list (gostring * factor)) : tied ((flat_map (fun x => match x with (_, y) => factor_m y end)) l ++ G) (term_step R l) (fun r => match r with inl y => (flat_map (fun x => match x with (_, y) => factor_m y end)) y | inr y => (flat_map (fun x => match x with (_, y) => factor_m y end)) y end).
Proof. unfold term_step; tie. Qed.
Lemma t_parse_term G : tied G (parse_term R) term_m.
Proof. unfold parse_term; tie; (eapply tied_bind; [lp t_term_step|intro; red_m]); tie. Qed.
#[local] Hint Resolve t_parse_term : tie.
Lemma t_simple_step G (l : list (gostring * term)) : tied ((flat_map (fun x => match x with (_, y) => term_m y end)) l ++ G) (simple_step R l) (fun r => match r with inl y => (flat_map (fun x => match x with (_, y) => term_m y end)) y | inr y => (flat_map (fun x => match x with (_, y) => term_m y end)) y end).
Proof. unfold simple_step; tie. Qed.
Lemma t_parse_simple_expression G : tied G (parse_simple_expression R) sexpr_m.
Proof. unfold parse_simple_expression; tie; (eapply tied_bind; [lp t_simple_step|intro; red_m]); tie. Qed.
#[local] Hint Resolve t_parse_simple_expression : tie.
Lemma t_expression_step G (l : list (gostring * sexpr)) : tied ((flat_map (fun x => match x with (_, y) => sexpr_m y end)) l ++ G) (expression_step R l) (fun r => match r with inl y => (flat_map (fun x => match x with (_, y) => sexpr_m y end)) y | inr y => (flat_map (fun x => match x with (_, y) => sexpr_m y end)) y end).
Proof. unfold expression_step; tie. Qed.
Lemma t_parse_expression G : tied G (parse_expression R) expr_m.
Proof. unfold parse_expression; tie; (eapply tied_bind; [lp t_expression_step|intro; red_m]); tie. Qed.
#[local] Hint Resolve t_parse_expression : tie.
Lemma t_parse_const_expr G : tied G (parse_const_expr R) expr_m.
Proof. unfold parse_const_expr; tie. Qed.
#[local] Hint Resolve t_parse_const_expr : tie.
Lemma t_parse_type_id_with_unit G : tied G (parse_type_id_with_unit) (opt (fun t => [MType t])).
Proof. unfold parse_type_id_with_unit; tie. Qed.
#[local] Hint Resolve t_parse_type_id_with_unit : tie.
Lemma t_parse_type_id_without_unit G : tied G (parse_type_id_without_unit) (fun t => [MType t]).
Proof. unfold parse_type_id_without_unit; tie; match goal with H : ti_ident ?r = new_ident ?t |- _ => change (raw t) with (i_name (new_ident t)); rewrite <- H end; (eapply tied_bind; [apply tied_addpost; mem|intro; red_m]); tie. Qed.
#[local] Hint Resolve t_parse_type_id_without_unit : tie.
Lemma embedded_ok k t ns h : ok ns h (MName (new_ident t) (embedded_type_decl k (value t))).
Proof.
  cbn [ok]. destruct (embedded_type_decl k (value t)) as [d|] eqn:E; [|exact I].
  eapply declares_alike; [eapply embedded_type_declares, E|apply value_alike].
Qed.
Lemma embedded_raw_ok k t ns h : ok ns h (MName (new_ident t) (embedded_type_decl k (raw t))).
Proof.
  cbn [ok]. destruct (embedded_type_decl k (raw t)) as [d|] eqn:E; [|exact I].
  eapply embedded_type_declares, E.
Qed.
Lemma t_parse_type_id G : tied G (parse_type_id) (fun t => [MType t]).
Proof. unfold parse_type_id; tie. Qed.
#[local] Hint Resolve t_parse_type_id : tie.
Lemma t_parse_embedded G (k : ekind) (b : bool) : tied G (parse_embedded k b) (opt (fun t => [MType t])).
Proof. unfold parse_embedded; eapply tied_bind; [leaf|intro t]; apply (tied_fact _ _ _ (MName (new_ident t) (embedded_type_decl k (value t)))); [intros; apply embedded_ok|]; tie. Qed.
#[local] Hint Resolve t_parse_embedded : tie.
Lemma t_parse_subrange_for_identifier G : tied G (parse_subrange_for_identifier R) (opt typ_m).
Proof. unfold parse_subrange_for_identifier, const_expr_of_qual_id; tie. Qed.
#[local] Hint Resolve t_parse_subrange_for_identifier : tie.
Lemma t_parse_type_for_identifier G : tied G (parse_type_for_identifier R) typ_m.
Proof. unfold parse_type_for_identifier; tie. Qed.
#[local] Hint Resolve t_parse_type_for_identifier : tie.
Lemma t_parse_pointer_type G : tied G (parse_pointer_type) typ_m.
Proof. unfold parse_pointer_type; tie. Qed.
#[local] Hint Resolve t_parse_pointer_type : tie.
Lemma t_parse_const_subrange G : tied G (parse_const_subrange R) typ_m.
Proof. unfold parse_const_subrange; tie. Qed.
#[local] Hint Resolve t_parse_const_subrange : tie.
Lemma t_parse_enum_element G : tied G (parse_enum_element R) (fun x => match x with (_, o) => opt expr_m o end).
Proof. unfold parse_enum_element; tie. Qed.
#[local] Hint Resolve t_parse_enum_element : tie.
Lemma t_enum_step G (l : list (ident * option expr)) : tied ((flat_map (fun x => match x with (_, o) => opt expr_m o end)) l ++ G) (enum_step R l) (fun r => match r with inl y => (flat_map (fun x => match x with (_, o) => opt expr_m o end)) y | inr y => (flat_map (fun x => match x with (_, o) => opt expr_m o end)) y end).
Proof. unfold enum_step; tie. Qed.
Lemma t_parse_enumerated_type G : tied G (parse_enumerated_type R) typ_m.
Proof. unfold parse_enumerated_type; tie; (eapply tied_bind; [lp t_enum_step|intro; red_m]); tie. Qed.
#[local] Hint Resolve t_parse_enumerated_type : tie.
Lemma t_parse_string_of_string_type G : tied G (parse_string_of_string_type R) typ_m.
Proof. unfold parse_string_of_string_type; eapply tied_bind; [leaf|intro t]; apply (tied_fact _ _ _ (MName (new_ident t) (embedded_type_decl EtkStringType (value t)))); [intros; apply embedded_ok|]; apply (tied_fact _ _ _ (MName (new_ident t) (embedded_type_decl EtkStringType (raw t)))); [intros; apply embedded_raw_ok|]; tie. Qed.
#[local] Hint Resolve t_parse_string_of_string_type : tie.
Lemma t_parse_type_as_ordinal G : tied G (parse_type_as_ordinal R) typ_m.
Proof. unfold parse_type_as_ordinal; tie. Qed.
#[local] Hint Resolve t_parse_type_as_ordinal : tie.
Lemma t_parse_field_decl G (te : predicator) : tied G (parse_field_decl R te) fielddecl_m.
Proof. unfold parse_field_decl; tie. Qed.
#[local] Hint Resolve t_parse_field_decl : tie.
Lemma t_parse_rec_variant G : tied G (parse_rec_variant R) recvariant_m.
Proof. unfold parse_rec_variant; tie. Qed.
#[local] Hint Resolve t_parse_rec_variant : tie.
Lemma t_rec_variants_step G (l : list recvariant) : tied ((flat_map recvariant_m) l ++ G) (rec_variants_step R l) (opt (flat_map recvariant_m)).
Proof. unfold rec_variants_step; tie. Qed.
Lemma t_variant_ident G : tied G (Attempt (
    t <- expect (p_type Identifier) ;;
    t1 <- next ;;
    if sym ":" t1 then Next ;;; Ret (Some (new_ident t)) else Ret None)%prog) none.
Proof. eapply tied_conseq; [apply (tied_attempt _ _ none); tie|]. intros a m []. Qed.
#[local] Hint Resolve t_variant_ident : tie.
Lemma t_parse_variant_section G : tied G (parse_variant_section R) variantsection_m.
Proof. unfold parse_variant_section; tie; (eapply tied_bind; [lp t_rec_variants_step|intro; red_m]); tie. Qed.
#[local] Hint Resolve t_parse_variant_section : tie.
Lemma t_field_decls_step G (te : predicator) (l : list fielddecl) : tied ((flat_map fielddecl_m) l ++ G) (field_decls_step R te l) (opt (flat_map fielddecl_m)).
Proof. unfold field_decls_step; tie. Qed.
Lemma t_parse_field_list G (te : predicator) : tied G (parse_field_list R te) fieldlist_m.
Proof. unfold parse_field_list; tie; (eapply tied_bind; [lp t_field_decls_step|intro; red_m]); tie. Qed.
#[local] Hint Resolve t_parse_field_list : tie.
Lemma t_parse_struc_type G : tied G (parse_struc_type R) typ_m.
Proof. unfold parse_struc_type, parse_array_type, parse_set_type, parse_rec_type, parse_file_type; tie. Qed.
#[local] Hint Resolve t_parse_struc_type : tie.
Lemma t_parse_parameter G (s : string) : tied G (parse_parameter R s) (fun x => match x with (_, ty, e) => opt (fun x => match x with (t, _) => typ_m t end) ty ++ opt expr_m e end).
Proof. unfold parse_parameter; tie. Qed.
#[local] Hint Resolve t_parse_parameter : tie.
Lemma t_parse_formal_parm G (s : string) : tied G (parse_formal_parm R s) formalparm_m.
Proof. unfold parse_formal_parm; tie. Qed.
#[local] Hint Resolve t_parse_formal_parm : tie.
Lemma t_parse_formal_parameters G (a : string) (b : string) : tied G (parse_formal_parameters R a b) (flat_map formalparm_m).
Proof. unfold parse_formal_parameters; tie. Qed.
#[local] Hint Resolve t_parse_formal_parameters : tie.
Lemma t_parse_procedure_type G : tied G (parse_procedure_type R) typ_m.
Proof. unfold parse_procedure_type; tie. Qed.
#[local] Hint Resolve t_parse_procedure_type : tie.
Lemma t_parse_function_heading G : tied G (parse_function_heading R) heading_m.
Proof. unfold parse_function_heading; tie. Qed.
#[local] Hint Resolve t_parse_function_heading : tie.
Lemma t_parse_class_heritage G : tied G (parse_class_heritage R) (opt (flat_map (fun t => [MType t]))).
Proof. unfold parse_class_heritage; tie. Qed.
#[local] Hint Resolve t_parse_class_heritage : tie.
Lemma t_parse_class_field G : tied G (parse_class_field R) (fun x => match x with (_, y) => typ_m y end).
Proof. unfold parse_class_field; tie. Qed.
#[local] Hint Resolve t_parse_class_field : tie.
Lemma t_class_fields_step G (l : list (list ident * typ)) : tied ((flat_map (fun x => match x with (_, y) => typ_m y end)) l ++ G) (class_fields_step R l) (opt (flat_map (fun x => match x with (_, y) => typ_m y end))).
Proof. unfold class_fields_step; tie. Qed.
Lemma t_parse_class_field_list G : tied G (parse_class_field_list R) (flat_map (fun x => match x with (_, y) => typ_m y end)).
Proof. unfold parse_class_field_list; tie; lp t_class_fields_step. Qed.
#[local] Hint Resolve t_parse_class_field_list : tie.
Lemma t_method_directives_step G (l : list gostring) : tied (none l ++ G) (method_directives_step l) (opt none).
Proof. unfold method_directives_step; tie. Qed.
Lemma t_parse_class_method_directive_list G : tied G (parse_class_method_directive_list R) none.
Proof. unfold parse_class_method_directive_list; tie; lp t_method_directives_step. Qed.
#[local] Hint Resolve t_parse_class_method_directive_list : tie.
Lemma t_parse_constructor_heading G : tied G (parse_constructor_heading R) cheading_m.
Proof. unfold parse_constructor_heading; tie. Qed.
#[local] Hint Resolve t_parse_constructor_heading : tie.
Lemma t_parse_destructor_heading G : tied G (parse_destructor_heading) cheading_m.
Proof. unfold parse_destructor_heading; tie. Qed.
#[local] Hint Resolve t_parse_destructor_heading : tie.
Lemma t_parse_class_method G : tied G (parse_class_method R) cmethod_m.
Proof. unfold parse_class_method; tie. Qed.
#[local] Hint Resolve t_parse_class_method : tie.
Lemma t_class_methods_step G (l : list cmethod) : tied ((flat_map cmethod_m) l ++ G) (class_methods_step R l) (opt (flat_map cmethod_m)).
Proof. unfold class_methods_step; tie. Qed.
Lemma t_parse_class_method_list G : tied G (parse_class_method_list R) (flat_map cmethod_m).
Proof. unfold parse_class_method_list; tie; lp t_class_methods_step. Qed.
#[local] Hint Resolve t_parse_class_method_list : tie.
Lemma t_parse_property_interface G : tied G (parse_property_interface R) (fun x => match x with (ps, t) => opt (flat_map formalparm_m) ps ++ [MType t] end).
Proof. unfold parse_property_interface; tie. Qed.
#[local] Hint Resolve t_parse_property_interface : tie.
Lemma decls_find_alike l kw d : decls_find l kw = Some d -> alike (i_name (d_ident d)) kw.
Proof.
  unfold decls_find. induction l as [|x l IH]; cbn [find_name]; [discriminate|].
  destruct (runes_equal (to_lower (i_name (d_ident x))) (to_lower kw)) eqn:E; [|exact IH].
  intros [= <-]. apply same_lower_alike. now apply runes_equal_eq.
Qed.
Lemma find_in_sections_alike b kw d : forall ss, find_in_sections b ss kw = Some (Some d) -> alike (i_name (d_ident d)) kw.
Proof.
  induction ss as [|[v fs ms ps] ss IH]; cbn [find_in_sections]; [discriminate|].
  destruct (negb b && is_private v); [exact IH|].
  assert (F : forall r, find_field fs kw = Some r -> r = Some d -> alike (i_name (d_ident d)) kw).
  { clear. induction fs as [|[ids t] fs IH]; cbn [find_field]; [discriminate|]. intros r.
    destruct (ident_list_find ids kw); [|apply IH]. intros [= <-] E. eapply decls_find_alike, E. }
  destruct (find_field fs kw) as [r|]; [intros [= ->]; now apply (F (Some d))|].
  assert (M : forall r, find_method ms kw = Some r -> r = Some d -> alike (i_name (d_ident d)) kw).
  { clear. induction ms as [|m ms IH]; cbn [find_method]; [discriminate|]. intros r.
    destruct (runes_equal _ _); [|apply IH]. intros [= <-] E. eapply decls_find_alike, E. }
  destruct (find_method ms kw) as [r|]; [intros [= ->]; now apply (M (Some d))|].
  assert (Q : forall r, find_prop ps kw = Some r -> r = Some d -> alike (i_name (d_ident d)) kw).
  { clear. induction ps as [|m ps IH]; cbn [find_prop]; [discriminate|]. intros r.
    destruct (runes_equal _ _); [|apply IH]. intros [= <-] E. eapply decls_find_alike, E. }
  destruct (find_prop ps kw) as [r|]; [intros [= ->]; now apply (Q (Some d))|]. exact IH.
Qed.
Lemma find_member_alike h n d : forall f her mem b, find_member f h her mem n b = Some (Some d) -> alike (i_name (d_ident d)) n.
Proof.
  induction f as [|f IH]; intros her mem b; cbn [find_member]; [discriminate|].
  destruct (find_in_sections b (sections mem) (to_lower n)) as [r|] eqn:E.
  - intros [= ->]. apply find_in_sections_alike in E. eapply alike_trans; [exact E|]. apply alike_sym, alike_lower.
  - destruct (parent_class h her) as [[her' mem']|]; [apply IH|discriminate].
Qed.
Lemma t_find_member_decl G her mem n i : alike n (i_name i) -> tied G (find_member_decl R her mem n) (fun d => [MName i d]).
Proof.
  intros A. unfold find_member_decl. apply tied_heap. intros ns c h Gd O.
  destruct (find_member _ _ _ _ _ _) as [[d|]|] eqn:E; [| |exact I].
  - exists ns.
    assert (L : later ns h ns (with_decls (h_decls h ++ [d]) h)) by (split; [exists []; now rewrite app_nil_r|split; [exists [d]; reflexivity|now apply kept_same]]).
    split; [exact L|]. split; [eapply good_decls; eauto; reflexivity|]. repeat constructor. cbn [ok].
    exists d. split; [cbn; rewrite nth_error_app2 by lia; now rewrite Nat.sub_diag|].
    eapply alike_trans; [eapply find_member_alike, E|exact A].
  - exists ns. split; [apply later_refl|]. split; [exact Gd|]. repeat constructor.
Qed.
Lemma t_find_member_value G her mem t : tied G (find_member_decl R her mem (value t)) (fun d => [MName (new_ident t) d]).
Proof. apply t_find_member_decl. apply value_alike. Qed.
Lemma t_find_member_lower G her mem t : tied G (find_member_decl R her mem (to_lower (value t))) (fun d => [MName (new_ident t) d]).
Proof. apply t_find_member_decl. eapply alike_trans; [apply alike_sym, alike_lower|apply value_alike]. Qed.
#[local] Hint Resolve t_find_member_value t_find_member_lower : tie.
Lemma find_property_alike h n q : forall f her mem b, find_property f h her mem n b = Some (Some q) -> alike (i_name (name_of_prop q)) n.
Proof.
  assert (S : forall ss kw, prop_in_sections ss kw = Some q -> to_lower (i_name (name_of_prop q)) = kw).
  { induction ss as [|[v fs ms ps] ss IH]; intros kw; cbn [prop_in_sections]; [discriminate|].
    assert (L : prop_in_list ps kw = Some q -> to_lower (i_name (name_of_prop q)) = kw).
    { clear. induction ps as [|p ps IH]; cbn [prop_in_list]; [discriminate|]. destruct (runes_equal _ _) eqn:E; [|exact IH].
      intros [= ->]. apply runes_equal_eq in E. exact E. }
    destruct (prop_in_list ps kw) as [p|]; [intros [= ->]; now apply L|apply IH]. }
  induction f as [|f IH]; intros her mem b; cbn [find_property]; [discriminate|].
  destruct (prop_in_sections (sections mem) (to_lower n)) as [p|] eqn:E.
  - intros [= ->]. apply same_lower_alike. now apply S in E.
  - destruct b; [|discriminate]. destruct (parent_class h her) as [[her' mem']|]; [apply IH|discriminate].
Qed.
Lemma t_find_property G her mem t : tied G (OnHeap (fun _ h => match find_property (r_fuel R) h her (Some mem) (raw t) true with
    | None => HStuck | Some r => HOk r h end)) (opt (fun q => [MParent (new_ident t) (name_of_prop q)])).
Proof.
  apply tied_heap. intros ns c h Gd O. destruct (find_property _ _ _ _ _ _) as [[q|]|] eqn:E; [| |exact I];
    exists ns; (split; [apply later_refl|]); (split; [exact Gd|]); cbn [opt]; [|constructor].
  constructor; [|constructor]. cbn [ok]. eapply find_property_alike, E.
Qed.
#[local] Hint Resolve t_find_property : tie.
Lemma t_parse_accessor G (w : string) (her : option (list typeid)) (mem : list csection) : tied G (parse_accessor R w her mem) (opt identref_m).
Proof. unfold parse_accessor; tie. Qed.
#[local] Hint Resolve t_parse_accessor : tie.
Lemma t_parse_stored G (her : option (list typeid)) (mem : list csection) : tied G (parse_stored R her mem) (opt cstored_m).
Proof. unfold parse_stored; tie. Qed.
#[local] Hint Resolve t_parse_stored : tie.
Lemma t_parse_class_property G (her : option (list typeid)) (mem : list csection) : tied G (parse_class_property R her mem) cprop_m.
Proof. unfold parse_class_property; tie. Qed.
#[local] Hint Resolve t_parse_class_property : tie.
Lemma t_class_props_step G (her : option (list typeid)) (mem : list csection) (l : list cprop) : tied ((flat_map cprop_m) l ++ G) (class_props_step R her mem l) (opt (flat_map cprop_m)).
Proof. unfold class_props_step; tie. Qed.
Lemma t_parse_class_property_list G (her : option (list typeid)) (mem : list csection) : tied G (parse_class_property_list R her mem) (flat_map cprop_m).
Proof. unfold parse_class_property_list; tie; lp t_class_props_step. Qed.
#[local] Hint Resolve t_parse_class_property_list : tie.
Lemma t_parse_class_member_section G (her : option (list typeid)) (mem : list csection) : tied G (parse_class_member_section R her mem) csection_m.
Proof. unfold parse_class_member_section; tie. Qed.
#[local] Hint Resolve t_parse_class_member_section : tie.
Lemma t_class_sections_step G (her : option (list typeid)) (l : list csection) : tied ((flat_map csection_m) l ++ G) (class_sections_step R her l) (opt (flat_map csection_m)).
Proof. unfold class_sections_step; tie. Qed.
Lemma t_parse_class_member_sections G (her : option (list typeid)) : tied G (parse_class_member_sections R her) (flat_map csection_m).
Proof. unfold parse_class_member_sections; tie; lp t_class_sections_step. Qed.
#[local] Hint Resolve t_parse_class_member_sections : tie.
Lemma t_parse_class_type G : tied G (parse_class_type R) typ_m.
Proof. unfold parse_class_type; tie. Qed.
#[local] Hint Resolve t_parse_class_type : tie.
Lemma t_new_fwd G : tied G (OnHeap (fun _ h => HOk (TFwdClass (length (h_fwds h))) (with_fwds (h_fwds h ++ [None]) h))) typ_m.
Proof.
  apply tied_heap. intros ns c h Gd O. exists ns. split; [apply later_same; now split|]. split; [eapply good_same; eauto|constructor].
Qed.
#[local] Hint Resolve t_new_fwd : tie.
Lemma t_parse_class_type_or_class_ref G : tied G (parse_class_type_or_class_ref R) typ_m.
Proof.
  unfold parse_class_type_or_class_ref; tie.
  match goal with |- tied _ (Bind (new_type_id _ _ (match ?x with _ => _ end)) _) _ => destruct x as [[d nd]|] end; tie.
  destruct nd; tie.
Qed.
#[local] Hint Resolve t_parse_class_type_or_class_ref : tie.
Lemma t_parse_type G : tied G (parse_type R) typ_m.
Proof. unfold parse_type; tie. Qed.
#[local] Hint Resolve t_parse_type : tie.
Lemma t_declare_type G i ty : tied G (declare_type i ty) none.
Proof.
  unfold declare_type. eapply tied_bind; [leaf|]. intros [[d nd]|]; red_m; [|leaf].
  destruct nd as [t'| | | | | | | | | | | | | | |]; try leaf. destruct t'; try leaf. destruct ty; try leaf.
  apply tied_heap. intros ns c h Gd O.
  match goal with |- context [ctx_overwrite ?x c _ (Some ?y)] => set (h2 := x); set (p := y) end.
  destruct (ctx_overwrite h2 c (i_name i) (Some p)) as [h3|] eqn:E; [|exact I].
  assert (G2 : good ns h2) by (eapply good_decls; [exact Gd|reflexivity..]).
  destruct (ctx_overwrite_good ns c h2 (i_name i) p h3 G2) as [G3 D]; [|exact E|].
  - eexists. split; [cbn; rewrite nth_error_app2 by lia; rewrite Nat.sub_diag; reflexivity|apply alike_refl].
  - exists ns. split; [split; [exists []; now rewrite app_nil_r|destruct D as [D D']; split; [eexists; rewrite D; reflexivity|now apply kept_same]]|]. split; [exact G3|constructor].
Qed.
#[local] Hint Resolve t_declare_type : tie.
Lemma t_parse_type_decl G : tied G (parse_type_decl R) typedecl_m.
Proof. unfold parse_type_decl; tie. Qed.
#[local] Hint Resolve t_parse_type_decl : tie.
Lemma t_section_head G (b : bool) (k : predicator) : tied G (section_head b k) none.
Proof. unfold section_head; tie. Qed.
#[local] Hint Resolve t_section_head : tie.
Lemma t_type_section_step G (l : list typedecl) : tied ((flat_map typedecl_m) l ++ G) (type_section_step R l) (fun r => match r with inl y => (flat_map typedecl_m) y | inr y => (flat_map typedecl_m) y end).
Proof. unfold type_section_step; tie. Qed.
Lemma t_parse_type_section G (b : bool) : tied G (parse_type_section R b) (opt (flat_map typedecl_m)).
Proof. unfold parse_type_section; tie; (eapply tied_bind; [lp t_type_section_step|intro; red_m]); tie. Qed.
#[local] Hint Resolve t_parse_type_section : tie.
Lemma t_parse_constant_decl G : tied G (parse_constant_decl R) constdecl_m.
Proof. unfold parse_constant_decl; tie. Qed.
#[local] Hint Resolve t_parse_constant_decl : tie.
Lemma t_const_section_step G (l : list constdecl) : tied ((flat_map constdecl_m) l ++ G) (const_section_step R l) (fun r => match r with inl y => (flat_map constdecl_m) y | inr y => (flat_map constdecl_m) y end).
Proof. unfold const_section_step; tie. Qed.
Lemma t_parse_const_section G (b : bool) : tied G (parse_const_section R b) (opt (flat_map constdecl_m)).
Proof. unfold parse_const_section; tie; (eapply tied_bind; [lp t_const_section_step|intro; red_m]); tie. Qed.
#[local] Hint Resolve t_parse_const_section : tie.
Lemma t_parse_var_decl G : tied G (parse_var_decl R) vardecl_m.
Proof. unfold parse_var_decl; tie. Qed.
#[local] Hint Resolve t_parse_var_decl : tie.
Lemma t_var_section_step G (l : list vardecl) : tied ((flat_map vardecl_m) l ++ G) (var_section_step R l) (fun r => match r with inl y => (flat_map vardecl_m) y | inr y => (flat_map vardecl_m) y end).
Proof. unfold var_section_step; tie. Qed.
Lemma t_parse_var_section G (b : bool) : tied G (parse_var_section R b) (opt (flat_map vardecl_m)).
Proof. unfold parse_var_section; tie; (eapply tied_bind; [lp t_var_section_step|intro; red_m]); tie. Qed.
#[local] Hint Resolve t_parse_var_section : tie.
Lemma t_parse_threadvar_decl G : tied G (parse_threadvar_decl R) threadvardecl_m.
Proof. unfold parse_threadvar_decl; tie. Qed.
#[local] Hint Resolve t_parse_threadvar_decl : tie.
Lemma t_threadvar_section_step G (l : list threadvardecl) : tied ((flat_map threadvardecl_m) l ++ G) (threadvar_section_step R l) (fun r => match r with inl y => (flat_map threadvardecl_m) y | inr y => (flat_map threadvardecl_m) y end).
Proof. unfold threadvar_section_step; tie. Qed.
Lemma t_parse_threadvar_section G (b : bool) : tied G (parse_threadvar_section R b) (opt (flat_map threadvardecl_m)).
Proof. unfold parse_threadvar_section; tie; (eapply tied_bind; [lp t_threadvar_section_step|intro; red_m]); tie. Qed.
#[local] Hint Resolve t_parse_threadvar_section : tie.
Lemma t_stmt_list_step G (te : predicator) (l : list stmt) : tied ((flat_map stmt_m) l ++ G) (stmt_list_step R te l) (fun r => match r with inl y => (flat_map stmt_m) y | inr y => (flat_map stmt_m) y end).
Proof. unfold stmt_list_step; tie. Qed.
Lemma t_parse_stmt_list G (te : predicator) : tied G (parse_stmt_list R te) (flat_map stmt_m).
Proof. unfold parse_stmt_list; tie; lp t_stmt_list_step. Qed.
#[local] Hint Resolve t_parse_stmt_list : tie.
Lemma t_parse_compound_stmt G : tied G (parse_compound_stmt R) sbody_m.
Proof. unfold parse_compound_stmt; tie. Qed.
#[local] Hint Resolve t_parse_compound_stmt : tie.
Lemma t_parse_designator_statement G : tied G (parse_designator_statement R) sbody_m.
Proof. unfold parse_designator_statement; tie. Qed.
#[local] Hint Resolve t_parse_designator_statement : tie.
Lemma t_parse_inherited G : tied G (parse_inherited) sbody_m.
Proof. unfold parse_inherited; tie. Qed.
#[local] Hint Resolve t_parse_inherited : tie.
Lemma t_parse_goto G : tied G (parse_goto) sbody_m.
Proof. unfold parse_goto; tie. Qed.
#[local] Hint Resolve t_parse_goto : tie.
Lemma t_asm_step G (l : unit) : tied (none l ++ G) (asm_step l) (fun r => match r with inl y => none y | inr y => none y end).
Proof. unfold asm_step; tie. Qed.
Lemma t_parse_asm G : tied G (parse_asm R) sbody_m.
Proof. unfold parse_asm; tie; (eapply tied_bind; [lp t_asm_step|intro; red_m]); tie. Qed.
#[local] Hint Resolve t_parse_asm : tie.
Lemma t_parse_if G : tied G (parse_if R) sbody_m.
Proof. unfold parse_if; tie. Qed.
#[local] Hint Resolve t_parse_if : tie.
Lemma t_parse_case_label G : tied G (parse_case_label R) (fun x => match x with (e, o) => expr_m e ++ opt expr_m o end).
Proof. unfold parse_case_label; tie. Qed.
#[local] Hint Resolve t_parse_case_label : tie.
Lemma t_case_labels_step G (l : list (expr * option expr)) : tied ((flat_map (fun x => match x with (e, o) => expr_m e ++ opt expr_m o end)) l ++ G) (case_labels_step R l) (fun r => match r with inl y => (flat_map (fun x => match x with (e, o) => expr_m e ++ opt expr_m o end)) y | inr y => (flat_map (fun x => match x with (e, o) => expr_m e ++ opt expr_m o end)) y end).
Proof. unfold case_labels_step; tie. Qed.
Lemma t_parse_case_selector G : tied G (parse_case_selector R) (fun x => match x with (ls, s) => flat_map (fun y => match y with (a, b) => expr_m a ++ opt expr_m b end) ls ++ stmt_m s end).
Proof. unfold parse_case_selector; tie; (eapply tied_bind; [lp t_case_labels_step|intro; red_m]); tie. Qed.
#[local] Hint Resolve t_parse_case_selector : tie.
Lemma t_case_selectors_step G (l : list (list (expr * option expr) * stmt)) : tied ((flat_map (fun x => match x with (ls, s) => flat_map (fun y => match y with (a, b) => expr_m a ++ opt expr_m b end) ls ++ stmt_m s end)) l ++ G) (case_selectors_step R l) (fun r => match r with inl y => (flat_map (fun x => match x with (ls, s) => flat_map (fun y => match y with (a, b) => expr_m a ++ opt expr_m b end) ls ++ stmt_m s end)) y | inr y => (flat_map (fun x => match x with (ls, s) => flat_map (fun y => match y with (a, b) => expr_m a ++ opt expr_m b end) ls ++ stmt_m s end)) y end).
Proof. unfold case_selectors_step; tie. Qed.
Lemma t_parse_case G : tied G (parse_case R) sbody_m.
Proof. unfold parse_case; tie; (eapply tied_bind; [lp t_case_selectors_step|intro; red_m]); tie. Qed.
#[local] Hint Resolve t_parse_case : tie.
Lemma t_parse_repeat G : tied G (parse_repeat R) sbody_m.
Proof. unfold parse_repeat; tie. Qed.
#[local] Hint Resolve t_parse_repeat : tie.
Lemma t_parse_while G : tied G (parse_while R) sbody_m.
Proof. unfold parse_while; tie. Qed.
#[local] Hint Resolve t_parse_while : tie.
Lemma t_parse_for G : tied G (parse_for R) sbody_m.
Proof. unfold parse_for; tie. Qed.
#[local] Hint Resolve t_parse_for : tie.
Lemma t_parse_with G : tied G (parse_with R) sbody_m.
Proof. unfold parse_with; tie. Qed.
#[local] Hint Resolve t_parse_with : tie.
Lemma t_parse_raise G : tied G (parse_raise R) sbody_m.
Proof. unfold parse_raise; tie. Qed.
#[local] Hint Resolve t_parse_raise : tie.
Lemma t_parse_handler G : tied G (parse_handler R) (fun x => match x with (_, t, s) => typ_m t ++ stmt_m s end).
Proof. unfold parse_handler; tie. Qed.
#[local] Hint Resolve t_parse_handler : tie.
Lemma t_handlers_step G (l : list (option ident * typ * stmt)) : tied ((flat_map (fun x => match x with (_, t, s) => typ_m t ++ stmt_m s end)) l ++ G) (handlers_step R l) (fun r => match r with inl y => (flat_map (fun x => match x with (_, t, s) => typ_m t ++ stmt_m s end)) y | inr y => (flat_map (fun x => match x with (_, t, s) => typ_m t ++ stmt_m s end)) y end).
Proof. unfold handlers_step; tie. Qed.
Lemma t_parse_exception_block G : tied G (parse_exception_block R) (fun x => match x with (hs, els) => flat_map (fun x => match x with (_, t, s) => typ_m t ++ stmt_m s end) hs ++ opt (flat_map stmt_m) els end).
Proof. unfold parse_exception_block; tie; (eapply tied_bind; [lp t_handlers_step|intro; red_m]); tie. Qed.
#[local] Hint Resolve t_parse_exception_block : tie.
Lemma t_parse_try G : tied G (parse_try R) sbody_m.
Proof. unfold parse_try; tie. Qed.
#[local] Hint Resolve t_parse_try : tie.
Lemma t_parse_statement_body G : tied G (parse_statement_body R) sbody_m.
Proof. unfold parse_statement_body; tie. Qed.
#[local] Hint Resolve t_parse_statement_body : tie.
Lemma t_parse_statement G : tied G (parse_statement R) stmt_m.
Proof. unfold parse_statement; tie. Qed.
#[local] Hint Resolve t_parse_statement : tie.
Lemma t_parse_external_options G : tied G (parse_external_options) none.
Proof. unfold parse_external_options; tie. Qed.
#[local] Hint Resolve t_parse_external_options : tie.
Lemma t_directives_step G (l : (list gostring * option extopts)) : tied (none l ++ G) (directives_step l) (fun r => match r with inl y => none y | inr y => none y end).
Proof. unfold directives_step; tie. Qed.
Lemma t_parse_function_directives G : tied G (parse_function_directives R) none.
Proof. unfold parse_function_directives; tie; lp t_directives_step. Qed.
#[local] Hint Resolve t_parse_function_directives : tie.
Lemma t_parse_optional_directives G : tied G (parse_optional_directives R) none.
Proof. unfold parse_optional_directives; tie. Qed.
#[local] Hint Resolve t_parse_optional_directives : tie.
Lemma t_parse_exported_heading G : tied G (parse_exported_heading R) intfdecl_m.
Proof. unfold parse_exported_heading; tie. Qed.
#[local] Hint Resolve t_parse_exported_heading : tie.
Lemma t_parse_procedure_decl_section G : tied G (parse_procedure_decl_section R) (opt declsection_m).
Proof. unfold parse_procedure_decl_section; tie. Qed.
#[local] Hint Resolve t_parse_procedure_decl_section : tie.
Lemma t_parse_label_decl_section G : tied G (parse_label_decl_section) (opt declsection_m).
Proof. unfold parse_label_decl_section; tie. Qed.
#[local] Hint Resolve t_parse_label_decl_section : tie.
Lemma t_parse_decl_section G : tied G (parse_decl_section R) (opt declsection_m).
Proof. unfold parse_decl_section; tie. Qed.
#[local] Hint Resolve t_parse_decl_section : tie.
Lemma t_decl_sections_step G (l : list declsection) : tied ((flat_map declsection_m) l ++ G) (decl_sections_step R l) (fun r => match r with inl y => (flat_map declsection_m) y | inr y => (flat_map declsection_m) y end).
Proof. unfold decl_sections_step; tie. Qed.
Lemma t_parse_decl_sections G : tied G (parse_decl_sections R) (opt (flat_map declsection_m)).
Proof. unfold parse_decl_sections; (eapply tied_bind; [lp t_decl_sections_step|intros [|x l]; unfold nonempty; red_m]); tie. Qed.
#[local] Hint Resolve t_parse_decl_sections : tie.
Lemma t_parse_exports_item G : tied G (parse_exports_item R) exports_m.
Proof. unfold parse_exports_item; tie. Qed.
#[local] Hint Resolve t_parse_exports_item : tie.
Lemma t_parse_exports_stmt G : tied G (parse_exports_stmt R) (opt (flat_map exports_m)).
Proof. unfold parse_exports_stmt; tie. Qed.
#[local] Hint Resolve t_parse_exports_stmt : tie.
Lemma t_exports_step G (l : list (list exportsitem)) : tied ((flat_map (flat_map exports_m)) l ++ G) (exports_step R l) (fun r => match r with inl y => (flat_map (flat_map exports_m)) y | inr y => (flat_map (flat_map exports_m)) y end).
Proof. unfold exports_step; tie. Qed.
Lemma t_parse_exports_stmts G : tied G (parse_exports_stmts R) (opt (flat_map (flat_map exports_m))).
Proof. unfold parse_exports_stmts; (eapply tied_bind; [lp t_exports_step|intros [|x l]; unfold nonempty; red_m]); tie. Qed.
#[local] Hint Resolve t_parse_exports_stmts : tie.
Lemma t_parse_block G : tied G (parse_block R) block_m.
Proof. unfold parse_block; tie; match goal with |- tied _ (Ret (Block _ (match ?x with _ => _ end) _)) _ => destruct x end; tie. Qed.
#[local] Hint Resolve t_parse_block : tie.
End Methods.

Lemma recs_at_tied n : recs_tied (recs_at n).
Proof.
  induction n as [|n IH]; cbn [recs_at]; constructor; cbn [r_expr r_factor r_type r_fields r_stmt r_block]; intros;
    try apply tied_nofuel.
  - now apply t_parse_expression.
  - now apply t_parse_factor.
  - now apply t_parse_type.
  - now apply t_parse_field_list.
  - now apply t_parse_statement.
  - now apply t_parse_block.
Qed.

End WithUnicode.
