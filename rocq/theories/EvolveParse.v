(** Every method of the parser leaves the outer scopes as they are: one lemma for each method
    of Parser.v, in its order. *)
From Coq Require Import String List NArith Bool Arith Lia.
From Verif Require Import ListUtil Runes Token Tokenizer Ast Ext ExtMain Heap Classes MapSpec MapFacts MapMain Prog Parser RunFacts EvolveFacts.
Import ListNotations.
Local Open Scope list_scope.

Section WithUnicode.
Context {U : Unicode}.

Create HintDb ev.
#[local] Hint Resolve evolves_ret evolves_next evolves_Cur evolves_failat evolves_fail evolves_crash evolves_nofuel
  evolves_addpost evolves_runpost evolves_validate evolves_cur evolves_is evolves_nexttok evolves_expect
  evolves_expect_next evolves_expect_or_fail evolves_get evolves_node evolves_get_node evolves_set evolves_new_type_id : ev.
Ltac ev := repeat first
  [ solve [auto with ev nocore]
  | match goal with
    | |- evolves (Bind _ _) => apply evolves_bind; [|intro]
    | |- evolves (Attempt _) => apply evolves_attempt
    | |- evolves (Scoped _) => apply evolves_scoped
    | |- evolves (Traced _) => apply evolves_traced
    | |- evolves (PostScope _) => apply evolves_postscope
    | |- evolves (loop _ _ _) => apply evolves_loop; intro
    | |- evolves (until_list _ _ _ _) => apply evolves_until_list
    | |- evolves (until _ _ _ _ _) => apply evolves_until; intro
    | |- evolves (match ?x with _ => _ end) => destruct x
    | |- evolves (let _ := _ in _) => cbv zeta
    | |- evolves (OnHeap _) => apply evolves_pure; intros ? ? ? ?;
        repeat match goal with |- context [match ?x with _ => _ end] => destruct x end; solve [congruence]
    end ].

(** The operations that are not in Prog.v *)
Lemma changed_decls c h l : changed c h (with_decls (h_decls h ++ l) h).
Proof. constructor; auto; [cbn; eauto|]. intros. now apply same_maps_eq. Qed.
Lemma changed_fwds c h l : changed c h (with_fwds l h).
Proof. constructor; auto; [exists []; cbn; now rewrite app_nil_r|]. intros o _. apply same_maps_eq. reflexivity. Qed.
Lemma changed_trans c h1 h2 h3 : changed c h1 h2 -> changed c h2 h3 -> changed c h1 h3.
Proof.
  intros [A1 A2 A3 A4 (l1 & A5) A6 A7] [B1 B2 B3 B4 (l2 & B5) B6 B7]. constructor; try congruence; try lia.
  - exists (l1 ++ l2). now rewrite B5, A5, app_assoc.
  - intros o E. eapply same_maps_trans; [exact (A6 o E)|apply (B6 o); rewrite A1; exact E|]. auto.
Qed.
Lemma changed_overwrite c h n d h' : ctx_overwrite h c n (Some d) = Some h' -> changed c h h'.
Proof.
  unfold ctx_overwrite. destruct (nth_error (h_ctxs h) c) as [o|] eqn:Eo; [|discriminate]. intros E.
  pose proof (doverwrite_target _ _ _ _ _ E) as On. destruct (target (cx_map o)) as [a|] eqn:T.
  - destruct On as [L M D R F Us Un Pr C]. constructor; auto.
    + exists []. now rewrite D, app_nil_r.
    + intros o' E'. rewrite Eo in E'. injection E' as <-. rewrite T. rewrite (doverwrite_impl _ _ a _ _ T) in E.
      unfold impl_overwrite in E. destruct (nth_error (h_maps h) a) as [m|] eqn:Em; [|discriminate]. injection E as <-.
      intros b mb Eb. cbn [h_maps with_maps]. destruct (Nat.eq_dec b a) as [->|N].
      * rewrite nth_set_nth_eq by (eapply nth_lt; eauto). eexists. split; [reflexivity|]. rewrite Em in Eb. injection Eb as <-.
        split; [congruence|apply keeps_put].
      * rewrite nth_set_nth_neq by congruence. exists mb. split; [exact Eb|]. split; [auto|apply keeps_refl].
    + lia.
  - subst h'. apply changed_refl.
Qed.

Lemma ev_is_unit_identifier (t : token) : evolves (is_unit_identifier t).
Proof. unfold is_unit_identifier; ev. Qed.
#[local] Hint Resolve ev_is_unit_identifier : ev.
Lemma ev_is_namespace_identifier (t : token) : evolves (is_namespace_identifier t).
Proof. unfold is_namespace_identifier; ev. Qed.
#[local] Hint Resolve ev_is_namespace_identifier : ev.
Lemma ev_new_ident_ref (t : token) : evolves (new_ident_ref t).
Proof. unfold new_ident_ref; ev. Qed.
#[local] Hint Resolve ev_new_ident_ref : ev.
Lemma ev_uses_item_unit (a : nat) : evolves (uses_item_unit a).
Proof. unfold uses_item_unit; ev. Qed.
#[local] Hint Resolve ev_uses_item_unit : ev.
Lemma ev_unit_get (a : nat) (name : gostring) : evolves (unit_get a name).
Proof. unfold unit_get; ev. Qed.
#[local] Hint Resolve ev_unit_get : ev.
Lemma ev_program_get (a : nat) (name : gostring) : evolves (program_get a name).
Proof. unfold program_get; ev. Qed.
#[local] Hint Resolve ev_program_get : ev.
Lemma ev_parse_qual_id : evolves (parse_qual_id).
Proof. unfold parse_qual_id; ev. Qed.
#[local] Hint Resolve ev_parse_qual_id : ev.
Lemma ev_parse_ident : evolves (parse_ident).
Proof. unfold parse_ident; ev. Qed.
#[local] Hint Resolve ev_parse_ident : ev.
Lemma ev_parse_ident_list_by (fuel : nat) (terminator : predicator) : evolves (parse_ident_list_by fuel terminator).
Proof. unfold parse_ident_list_by; ev. Qed.
#[local] Hint Resolve ev_parse_ident_list_by : ev.
Lemma ev_parse_manifest_constant (t : token) : evolves (parse_manifest_constant t).
Proof. unfold parse_manifest_constant; ev. Qed.
#[local] Hint Resolve ev_parse_manifest_constant : ev.
Lemma ev_parse_string_factor (t : token) (skip : bool) : evolves (parse_string_factor t skip).
Proof. unfold parse_string_factor; ev. Qed.
#[local] Hint Resolve ev_parse_string_factor : ev.
Lemma ev_parse_number_factor (t : token) (skip : bool) : evolves (parse_number_factor t skip).
Proof. unfold parse_number_factor; ev. Qed.
#[local] Hint Resolve ev_parse_number_factor : ev.

(** What the recursive calls do. *)
Definition recs_evolve (R : recs) : Prop :=
  evolves (r_expr R) /\ evolves (r_factor R) /\ evolves (r_type R) /\ (forall t, evolves (r_fields R t)) /\
  evolves (r_stmt R) /\ evolves (r_block R).
Section Methods.
Context (R : recs) (RE : recs_evolve R).
Lemma ev_r_expr : evolves (r_expr R). Proof. apply RE. Qed.
Lemma ev_r_factor : evolves (r_factor R). Proof. apply RE. Qed.
Lemma ev_r_type : evolves (r_type R). Proof. apply RE. Qed.
Lemma ev_r_fields t : evolves (r_fields R t). Proof. apply RE. Qed.
Lemma ev_r_stmt : evolves (r_stmt R). Proof. apply RE. Qed.
Lemma ev_r_block : evolves (r_block R). Proof. apply RE. Qed.
#[local] Hint Resolve ev_r_expr ev_r_factor ev_r_type ev_r_fields ev_r_stmt ev_r_block : ev.

Lemma ev_parse_qual_ids : evolves (parse_qual_ids R).
Proof. unfold parse_qual_ids; ev. Qed.
#[local] Hint Resolve ev_parse_qual_ids : ev.
Lemma ev_expr_list_step (terminator : predicator) (l : list expr) : evolves (expr_list_step R terminator l).
Proof. unfold expr_list_step; ev. Qed.
#[local] Hint Resolve ev_expr_list_step : ev.
Lemma ev_parse_expr_list (terminator : predicator) : evolves (parse_expr_list R terminator).
Proof. unfold parse_expr_list; ev. Qed.
#[local] Hint Resolve ev_parse_expr_list : ev.
Lemma ev_designator_step (items : list ditem) : evolves (designator_step R items).
Proof. unfold designator_step; ev. Qed.
#[local] Hint Resolve ev_designator_step : ev.
Lemma ev_parse_designator : evolves (parse_designator R).
Proof. unfold parse_designator; ev. Qed.
#[local] Hint Resolve ev_parse_designator : ev.
Lemma ev_parse_set_element : evolves (parse_set_element R).
Proof. unfold parse_set_element; ev. Qed.
#[local] Hint Resolve ev_parse_set_element : ev.
Lemma ev_parse_set_constructor : evolves (parse_set_constructor R).
Proof. unfold parse_set_constructor; ev. Qed.
#[local] Hint Resolve ev_parse_set_constructor : ev.
Lemma ev_parse_cast (t0 : token) (d : dref) : evolves (parse_cast R t0 d).
Proof. unfold parse_cast; ev. Qed.
#[local] Hint Resolve ev_parse_cast : ev.
Lemma ev_parse_designator_factor : evolves (parse_designator_factor R).
Proof. unfold parse_designator_factor; ev. Qed.
#[local] Hint Resolve ev_parse_designator_factor : ev.
Lemma ev_parse_factor : evolves (parse_factor R).
Proof. unfold parse_factor; ev. Qed.
#[local] Hint Resolve ev_parse_factor : ev.
Lemma ev_term_step (l : list (gostring * factor)) : evolves (term_step R l).
Proof. unfold term_step; ev. Qed.
#[local] Hint Resolve ev_term_step : ev.
Lemma ev_parse_term : evolves (parse_term R).
Proof. unfold parse_term; ev. Qed.
#[local] Hint Resolve ev_parse_term : ev.
Lemma ev_simple_step (l : list (gostring * term)) : evolves (simple_step R l).
Proof. unfold simple_step; ev. Qed.
#[local] Hint Resolve ev_simple_step : ev.
Lemma ev_parse_simple_expression : evolves (parse_simple_expression R).
Proof. unfold parse_simple_expression; ev. Qed.
#[local] Hint Resolve ev_parse_simple_expression : ev.
Lemma ev_expression_step (l : list (gostring * sexpr)) : evolves (expression_step R l).
Proof. unfold expression_step; ev. Qed.
#[local] Hint Resolve ev_expression_step : ev.
Lemma ev_parse_expression : evolves (parse_expression R).
Proof. unfold parse_expression; ev. Qed.
#[local] Hint Resolve ev_parse_expression : ev.
Lemma ev_parse_const_expr : evolves (parse_const_expr R).
Proof. unfold parse_const_expr; ev. Qed.
#[local] Hint Resolve ev_parse_const_expr : ev.
Lemma ev_parse_type_id_with_unit : evolves (parse_type_id_with_unit).
Proof. unfold parse_type_id_with_unit; ev. Qed.
#[local] Hint Resolve ev_parse_type_id_with_unit : ev.
Lemma ev_parse_type_id_without_unit : evolves (parse_type_id_without_unit).
Proof. unfold parse_type_id_without_unit; ev. Qed.
#[local] Hint Resolve ev_parse_type_id_without_unit : ev.
Lemma ev_parse_type_id : evolves (parse_type_id).
Proof. unfold parse_type_id; ev. Qed.
#[local] Hint Resolve ev_parse_type_id : ev.
Lemma ev_parse_embedded (k : ekind) (required : bool) : evolves (parse_embedded k required).
Proof. unfold parse_embedded; ev. Qed.
#[local] Hint Resolve ev_parse_embedded : ev.
Lemma ev_parse_subrange_for_identifier : evolves (parse_subrange_for_identifier R).
Proof. unfold parse_subrange_for_identifier; ev. Qed.
#[local] Hint Resolve ev_parse_subrange_for_identifier : ev.
Lemma ev_parse_type_for_identifier : evolves (parse_type_for_identifier R).
Proof. unfold parse_type_for_identifier; ev. Qed.
#[local] Hint Resolve ev_parse_type_for_identifier : ev.
Lemma ev_parse_pointer_type : evolves (parse_pointer_type).
Proof. unfold parse_pointer_type; ev. Qed.
#[local] Hint Resolve ev_parse_pointer_type : ev.
Lemma ev_parse_const_subrange : evolves (parse_const_subrange R).
Proof. unfold parse_const_subrange; ev. Qed.
#[local] Hint Resolve ev_parse_const_subrange : ev.
Lemma ev_parse_enum_element : evolves (parse_enum_element R).
Proof. unfold parse_enum_element; ev. Qed.
#[local] Hint Resolve ev_parse_enum_element : ev.
Lemma ev_enum_step (l : list (ident * option expr)) : evolves (enum_step R l).
Proof. unfold enum_step; ev. Qed.
#[local] Hint Resolve ev_enum_step : ev.
Lemma ev_parse_enumerated_type : evolves (parse_enumerated_type R).
Proof. unfold parse_enumerated_type; ev. Qed.
#[local] Hint Resolve ev_parse_enumerated_type : ev.
Lemma ev_parse_string_of_string_type : evolves (parse_string_of_string_type R).
Proof. unfold parse_string_of_string_type; ev. Qed.
#[local] Hint Resolve ev_parse_string_of_string_type : ev.
Lemma ev_parse_type_as_ordinal : evolves (parse_type_as_ordinal R).
Proof. unfold parse_type_as_ordinal; ev. Qed.
#[local] Hint Resolve ev_parse_type_as_ordinal : ev.
Lemma ev_parse_array_type : evolves (parse_array_type R).
Proof. unfold parse_array_type; ev. Qed.
#[local] Hint Resolve ev_parse_array_type : ev.
Lemma ev_parse_set_type : evolves (parse_set_type R).
Proof. unfold parse_set_type; ev. Qed.
#[local] Hint Resolve ev_parse_set_type : ev.
Lemma ev_parse_file_type : evolves (parse_file_type).
Proof. unfold parse_file_type; ev. Qed.
#[local] Hint Resolve ev_parse_file_type : ev.
Lemma ev_parse_field_decl (terminator : predicator) : evolves (parse_field_decl R terminator).
Proof. unfold parse_field_decl; ev. Qed.
#[local] Hint Resolve ev_parse_field_decl : ev.
Lemma ev_parse_rec_variant : evolves (parse_rec_variant R).
Proof. unfold parse_rec_variant; ev. Qed.
#[local] Hint Resolve ev_parse_rec_variant : ev.
Lemma ev_rec_variants_step (l : list recvariant) : evolves (rec_variants_step R l).
Proof. unfold rec_variants_step; ev. Qed.
#[local] Hint Resolve ev_rec_variants_step : ev.
Lemma ev_parse_variant_section : evolves (parse_variant_section R).
Proof. unfold parse_variant_section; ev. Qed.
#[local] Hint Resolve ev_parse_variant_section : ev.
Lemma ev_field_decls_step (terminator : predicator) (l : list fielddecl) : evolves (field_decls_step R terminator l).
Proof. unfold field_decls_step; ev. Qed.
#[local] Hint Resolve ev_field_decls_step : ev.
Lemma ev_parse_field_list (terminator : predicator) : evolves (parse_field_list R terminator).
Proof. unfold parse_field_list; ev. Qed.
#[local] Hint Resolve ev_parse_field_list : ev.
Lemma ev_parse_rec_type : evolves (parse_rec_type R).
Proof. unfold parse_rec_type; ev. Qed.
#[local] Hint Resolve ev_parse_rec_type : ev.
Lemma ev_parse_struc_type : evolves (parse_struc_type R).
Proof. unfold parse_struc_type; ev. Qed.
#[local] Hint Resolve ev_parse_struc_type : ev.
Lemma ev_parse_parameter (end_ : string) : evolves (parse_parameter R end_).
Proof. unfold parse_parameter; ev. Qed.
#[local] Hint Resolve ev_parse_parameter : ev.
Lemma ev_parse_formal_parm (end_ : string) : evolves (parse_formal_parm R end_).
Proof. unfold parse_formal_parm; ev. Qed.
#[local] Hint Resolve ev_parse_formal_parm : ev.
Lemma ev_parse_formal_parameters (start_ end_ : string) : evolves (parse_formal_parameters R start_ end_).
Proof. unfold parse_formal_parameters; ev. Qed.
#[local] Hint Resolve ev_parse_formal_parameters : ev.
(** What runs in a scope of its own. *)
Lemma ev_procedure_type_scope (function : bool) : evolves (
  t <- next ;;
  params <- (if sym "(" t then l <- parse_formal_parameters R "(" ")" ;; Ret (Some l) else Ret None) ;;
  ret <- (if function : bool then expect (sym ":") ;;; Next ;;; r <- parse_type_id ;; Ret (Some r) else Ret None) ;;
  b <- is (kw "OF") ;;
  ofobject <- (if b : bool then Next ;;; expect (kw "OBJECT") ;;; Next ;;; Ret true else Ret false) ;;
  Ret (TProc function params ret ofobject))%prog.
Proof. ev. Qed.
Lemma ev_parse_procedure_type : evolves (parse_procedure_type R).
Proof. unfold parse_procedure_type; ev. Qed.
#[local] Hint Resolve ev_parse_procedure_type : ev.
Lemma ev_parse_function_heading : evolves (parse_function_heading R).
Proof. unfold parse_function_heading; ev. Qed.
#[local] Hint Resolve ev_parse_function_heading : ev.
Lemma ev_parse_class_heritage : evolves (parse_class_heritage R).
Proof. unfold parse_class_heritage; ev. Qed.
#[local] Hint Resolve ev_parse_class_heritage : ev.
Lemma ev_parse_class_field : evolves (parse_class_field R).
Proof. unfold parse_class_field; ev. Qed.
#[local] Hint Resolve ev_parse_class_field : ev.
Lemma ev_class_fields_step (l : list (list ident * typ)) : evolves (class_fields_step R l).
Proof. unfold class_fields_step; ev. Qed.
#[local] Hint Resolve ev_class_fields_step : ev.
Lemma ev_parse_class_field_list : evolves (parse_class_field_list R).
Proof. unfold parse_class_field_list; ev. Qed.
#[local] Hint Resolve ev_parse_class_field_list : ev.
Lemma ev_method_directives_step (l : list gostring) : evolves (method_directives_step l).
Proof. unfold method_directives_step; ev. Qed.
#[local] Hint Resolve ev_method_directives_step : ev.
Lemma ev_parse_class_method_directive_list : evolves (parse_class_method_directive_list R).
Proof. unfold parse_class_method_directive_list; ev. Qed.
#[local] Hint Resolve ev_parse_class_method_directive_list : ev.
Lemma ev_parse_constructor_heading : evolves (parse_constructor_heading R).
Proof. unfold parse_constructor_heading; ev. Qed.
#[local] Hint Resolve ev_parse_constructor_heading : ev.
Lemma ev_parse_destructor_heading : evolves (parse_destructor_heading).
Proof. unfold parse_destructor_heading; ev. Qed.
#[local] Hint Resolve ev_parse_destructor_heading : ev.
Lemma ev_parse_class_method : evolves (parse_class_method R).
Proof. unfold parse_class_method; ev. Qed.
#[local] Hint Resolve ev_parse_class_method : ev.
Lemma ev_class_methods_step (l : list cmethod) : evolves (class_methods_step R l).
Proof. unfold class_methods_step; ev. Qed.
#[local] Hint Resolve ev_class_methods_step : ev.
Lemma ev_parse_class_method_list : evolves (parse_class_method_list R).
Proof. unfold parse_class_method_list; ev. Qed.
#[local] Hint Resolve ev_parse_class_method_list : ev.
Lemma ev_parse_property_interface : evolves (parse_property_interface R).
Proof. unfold parse_property_interface; ev. Qed.
#[local] Hint Resolve ev_parse_property_interface : ev.
Lemma ev_find_member_decl (her : option (list typeid)) (mem : list csection) (name : gostring) : evolves (find_member_decl R her mem name).
Proof.
  apply evolves_onheap. intros c h a h'. destruct (find_member _ _ _ _ _ _) as [[d|]|]; try discriminate; intros [= <- <-];
    [apply changed_decls|apply changed_refl].
Qed.
#[local] Hint Resolve ev_find_member_decl : ev.
Lemma ev_parse_accessor (word : string) (her : option (list typeid)) (mem : list csection) : evolves (parse_accessor R word her mem).
Proof. unfold parse_accessor; ev. Qed.
#[local] Hint Resolve ev_parse_accessor : ev.
Lemma ev_parse_stored (her : option (list typeid)) (mem : list csection) : evolves (parse_stored R her mem).
Proof. unfold parse_stored; ev. Qed.
#[local] Hint Resolve ev_parse_stored : ev.
Lemma ev_parse_class_property (her : option (list typeid)) (mem : list csection) : evolves (parse_class_property R her mem).
Proof. unfold parse_class_property; ev. Qed.
#[local] Hint Resolve ev_parse_class_property : ev.
Lemma ev_class_props_step (her : option (list typeid)) (mem : list csection) (l : list cprop) : evolves (class_props_step R her mem l).
Proof. unfold class_props_step; ev. Qed.
#[local] Hint Resolve ev_class_props_step : ev.
Lemma ev_parse_class_property_list (her : option (list typeid)) (mem : list csection) : evolves (parse_class_property_list R her mem).
Proof. unfold parse_class_property_list; ev. Qed.
#[local] Hint Resolve ev_parse_class_property_list : ev.
Lemma ev_parse_class_member_section (her : option (list typeid)) (secs : list csection) : evolves (parse_class_member_section R her secs).
Proof. unfold parse_class_member_section; ev. Qed.
#[local] Hint Resolve ev_parse_class_member_section : ev.
Lemma ev_class_sections_step (her : option (list typeid)) (secs : list csection) : evolves (class_sections_step R her secs).
Proof. unfold class_sections_step; ev. Qed.
#[local] Hint Resolve ev_class_sections_step : ev.
Lemma ev_parse_class_member_sections (her : option (list typeid)) : evolves (parse_class_member_sections R her).
Proof. unfold parse_class_member_sections; ev. Qed.
#[local] Hint Resolve ev_parse_class_member_sections : ev.
Lemma ev_parse_class_type : evolves (parse_class_type R).
Proof. unfold parse_class_type; ev. Qed.
#[local] Hint Resolve ev_parse_class_type : ev.
Lemma ev_parse_class_type_or_class_ref : evolves (parse_class_type_or_class_ref R).
Proof.
  unfold parse_class_type_or_class_ref; ev. apply evolves_onheap. intros c h x h' [= <- <-]. apply changed_fwds.
Qed.
#[local] Hint Resolve ev_parse_class_type_or_class_ref : ev.
Lemma ev_parse_type : evolves (parse_type R).
Proof. unfold parse_type; ev. Qed.
#[local] Hint Resolve ev_parse_type : ev.
Lemma ev_declare_type (i : ident) (ty : typ) : evolves (declare_type i ty).
Proof.
  unfold declare_type; ev. apply evolves_onheap. intros c h x h'. cbv zeta.
  destruct (ctx_overwrite _ _ _ _) as [h3|] eqn:E; [|discriminate]. intros [= <- <-].
  apply changed_overwrite in E. eapply changed_trans; [apply changed_fwds|]. eapply changed_trans; [apply changed_decls|exact E].
Qed.
#[local] Hint Resolve ev_declare_type : ev.
Lemma ev_parse_type_decl : evolves (parse_type_decl R).
Proof. unfold parse_type_decl; ev. Qed.
#[local] Hint Resolve ev_parse_type_decl : ev.
Lemma ev_section_head (required : bool) (k : predicator) : evolves (section_head required k).
Proof. unfold section_head; ev. Qed.
#[local] Hint Resolve ev_section_head : ev.
Lemma ev_type_section_step (l : list typedecl) : evolves (type_section_step R l).
Proof. unfold type_section_step; ev. Qed.
#[local] Hint Resolve ev_type_section_step : ev.
Lemma ev_parse_type_section (required : bool) : evolves (parse_type_section R required).
Proof. unfold parse_type_section; ev. Qed.
#[local] Hint Resolve ev_parse_type_section : ev.
Lemma ev_parse_constant_decl : evolves (parse_constant_decl R).
Proof. unfold parse_constant_decl; ev. Qed.
#[local] Hint Resolve ev_parse_constant_decl : ev.
Lemma ev_const_section_step (l : list constdecl) : evolves (const_section_step R l).
Proof. unfold const_section_step; ev. Qed.
#[local] Hint Resolve ev_const_section_step : ev.
Lemma ev_parse_const_section (required : bool) : evolves (parse_const_section R required).
Proof. unfold parse_const_section; ev. Qed.
#[local] Hint Resolve ev_parse_const_section : ev.
Lemma ev_parse_var_decl : evolves (parse_var_decl R).
Proof. unfold parse_var_decl; ev. Qed.
#[local] Hint Resolve ev_parse_var_decl : ev.
Lemma ev_var_section_step (l : list vardecl) : evolves (var_section_step R l).
Proof. unfold var_section_step; ev. Qed.
#[local] Hint Resolve ev_var_section_step : ev.
Lemma ev_parse_var_section (required : bool) : evolves (parse_var_section R required).
Proof. unfold parse_var_section; ev. Qed.
#[local] Hint Resolve ev_parse_var_section : ev.
Lemma ev_parse_threadvar_decl : evolves (parse_threadvar_decl R).
Proof. unfold parse_threadvar_decl; ev. Qed.
#[local] Hint Resolve ev_parse_threadvar_decl : ev.
Lemma ev_threadvar_section_step (l : list threadvardecl) : evolves (threadvar_section_step R l).
Proof. unfold threadvar_section_step; ev. Qed.
#[local] Hint Resolve ev_threadvar_section_step : ev.
Lemma ev_parse_threadvar_section (required : bool) : evolves (parse_threadvar_section R required).
Proof. unfold parse_threadvar_section; ev. Qed.
#[local] Hint Resolve ev_parse_threadvar_section : ev.
Lemma ev_stmt_list_step (terminator : predicator) (l : list stmt) : evolves (stmt_list_step R terminator l).
Proof. unfold stmt_list_step; ev. Qed.
#[local] Hint Resolve ev_stmt_list_step : ev.
Lemma ev_parse_stmt_list (terminator : predicator) : evolves (parse_stmt_list R terminator).
Proof. unfold parse_stmt_list; ev. Qed.
#[local] Hint Resolve ev_parse_stmt_list : ev.
Lemma ev_parse_compound_stmt : evolves (parse_compound_stmt R).
Proof. unfold parse_compound_stmt; ev. Qed.
#[local] Hint Resolve ev_parse_compound_stmt : ev.
Lemma ev_parse_designator_statement : evolves (parse_designator_statement R).
Proof. unfold parse_designator_statement; ev. Qed.
#[local] Hint Resolve ev_parse_designator_statement : ev.
Lemma ev_parse_inherited : evolves (parse_inherited).
Proof. unfold parse_inherited; ev. Qed.
#[local] Hint Resolve ev_parse_inherited : ev.
Lemma ev_parse_goto : evolves (parse_goto).
Proof. unfold parse_goto; ev. Qed.
#[local] Hint Resolve ev_parse_goto : ev.
Lemma ev_asm_step (u : unit) : evolves (asm_step u).
Proof. unfold asm_step; ev. Qed.
#[local] Hint Resolve ev_asm_step : ev.
Lemma ev_parse_asm : evolves (parse_asm R).
Proof. unfold parse_asm; ev. Qed.
#[local] Hint Resolve ev_parse_asm : ev.
Lemma ev_parse_if : evolves (parse_if R).
Proof. unfold parse_if; ev. Qed.
#[local] Hint Resolve ev_parse_if : ev.
Lemma ev_parse_case_label : evolves (parse_case_label R).
Proof. unfold parse_case_label; ev. Qed.
#[local] Hint Resolve ev_parse_case_label : ev.
Lemma ev_case_labels_step (l : list (expr * option expr)) : evolves (case_labels_step R l).
Proof. unfold case_labels_step; ev. Qed.
#[local] Hint Resolve ev_case_labels_step : ev.
Lemma ev_parse_case_selector : evolves (parse_case_selector R).
Proof. unfold parse_case_selector; ev. Qed.
#[local] Hint Resolve ev_parse_case_selector : ev.
Lemma ev_case_selectors_step (l : list (list (expr * option expr) * stmt)) : evolves (case_selectors_step R l).
Proof. unfold case_selectors_step; ev. Qed.
#[local] Hint Resolve ev_case_selectors_step : ev.
Lemma ev_parse_case : evolves (parse_case R).
Proof. unfold parse_case; ev. Qed.
#[local] Hint Resolve ev_parse_case : ev.
Lemma ev_parse_repeat : evolves (parse_repeat R).
Proof. unfold parse_repeat; ev. Qed.
#[local] Hint Resolve ev_parse_repeat : ev.
Lemma ev_parse_while : evolves (parse_while R).
Proof. unfold parse_while; ev. Qed.
#[local] Hint Resolve ev_parse_while : ev.
Lemma ev_parse_for : evolves (parse_for R).
Proof. unfold parse_for; ev. Qed.
#[local] Hint Resolve ev_parse_for : ev.
Lemma ev_parse_with : evolves (parse_with R).
Proof. unfold parse_with; ev. Qed.
#[local] Hint Resolve ev_parse_with : ev.
Lemma ev_parse_raise : evolves (parse_raise R).
Proof. unfold parse_raise; ev. Qed.
#[local] Hint Resolve ev_parse_raise : ev.
Lemma ev_parse_handler : evolves (parse_handler R).
Proof. unfold parse_handler; ev. Qed.
#[local] Hint Resolve ev_parse_handler : ev.
Lemma ev_handlers_step (l : list (option ident * typ * stmt)) : evolves (handlers_step R l).
Proof. unfold handlers_step; ev. Qed.
#[local] Hint Resolve ev_handlers_step : ev.
Lemma ev_parse_exception_block : evolves (parse_exception_block R).
Proof. unfold parse_exception_block; ev. Qed.
#[local] Hint Resolve ev_parse_exception_block : ev.
Lemma ev_parse_try : evolves (parse_try R).
Proof. unfold parse_try; ev. Qed.
#[local] Hint Resolve ev_parse_try : ev.
Lemma ev_parse_statement_body : evolves (parse_statement_body R).
Proof. unfold parse_statement_body; ev. Qed.
#[local] Hint Resolve ev_parse_statement_body : ev.
Lemma ev_parse_statement : evolves (parse_statement R).
Proof. unfold parse_statement; ev. Qed.
#[local] Hint Resolve ev_parse_statement : ev.
Lemma ev_parse_external_options : evolves (parse_external_options).
Proof. unfold parse_external_options; ev. Qed.
#[local] Hint Resolve ev_parse_external_options : ev.
Lemma ev_directives_step (st : list gostring * option extopts) : evolves (directives_step st).
Proof. unfold directives_step; ev. Qed.
#[local] Hint Resolve ev_directives_step : ev.
Lemma ev_parse_function_directives : evolves (parse_function_directives R).
Proof. unfold parse_function_directives; ev. Qed.
#[local] Hint Resolve ev_parse_function_directives : ev.
Lemma ev_parse_optional_directives : evolves (parse_optional_directives R).
Proof. unfold parse_optional_directives; ev. Qed.
#[local] Hint Resolve ev_parse_optional_directives : ev.
Lemma ev_parse_exported_heading : evolves (parse_exported_heading R).
Proof. unfold parse_exported_heading; ev. Qed.
#[local] Hint Resolve ev_parse_exported_heading : ev.
Lemma ev_exported_heading_scope : evolves (
  t <- cur ;;
  h <- (if eqs_any (value t) ["PROCEDURE"; "FUNCTION"]%string then
          h <- parse_function_heading R ;; Ret (Some h)
        else Ret None) ;;
  expect (sym ";") ;;;
  match h with
  | None => Crash
  | Some h =>
      set [mkDecl (heading_ident h) NExported] ;;;
      Next ;;;
      '(l, o) <- parse_optional_directives R ;;
      Ret (IHeading h l o)
  end)%prog.
Proof. ev. Qed.
Lemma ev_procedure_decl_scope : evolves (
  h <- parse_function_heading R ;;
  expect (sym ";") ;;;
  set [mkDecl (heading_ident h) NFunc] ;;;
  Next ;;;
  '(l, o) <- parse_optional_directives R ;;
  b <- r_block R ;;
  Ret (Some (DSFunc h l o b)))%prog.
Proof. ev. Qed.
Lemma ev_parse_procedure_decl_section : evolves (parse_procedure_decl_section R).
Proof. unfold parse_procedure_decl_section; ev. Qed.
#[local] Hint Resolve ev_parse_procedure_decl_section : ev.
Lemma ev_parse_label_decl_section : evolves (parse_label_decl_section).
Proof. unfold parse_label_decl_section; ev. Qed.
#[local] Hint Resolve ev_parse_label_decl_section : ev.
Lemma ev_parse_decl_section : evolves (parse_decl_section R).
Proof. unfold parse_decl_section; ev. Qed.
#[local] Hint Resolve ev_parse_decl_section : ev.
Lemma ev_decl_sections_step (l : list declsection) : evolves (decl_sections_step R l).
Proof. unfold decl_sections_step; ev. Qed.
#[local] Hint Resolve ev_decl_sections_step : ev.
Lemma ev_parse_decl_sections : evolves (parse_decl_sections R).
Proof. unfold parse_decl_sections; ev. Qed.
#[local] Hint Resolve ev_parse_decl_sections : ev.
Lemma ev_parse_exports_item : evolves (parse_exports_item R).
Proof. unfold parse_exports_item; ev. Qed.
#[local] Hint Resolve ev_parse_exports_item : ev.
Lemma ev_parse_exports_stmt : evolves (parse_exports_stmt R).
Proof. unfold parse_exports_stmt; ev. Qed.
#[local] Hint Resolve ev_parse_exports_stmt : ev.
Lemma ev_exports_step (l : list (list exportsitem)) : evolves (exports_step R l).
Proof. unfold exports_step; ev. Qed.
#[local] Hint Resolve ev_exports_step : ev.
Lemma ev_parse_exports_stmts : evolves (parse_exports_stmts R).
Proof. unfold parse_exports_stmts; ev. Qed.
#[local] Hint Resolve ev_parse_exports_stmts : ev.
Lemma ev_parse_block : evolves (parse_block R).
Proof. unfold parse_block; ev. Qed.
#[local] Hint Resolve ev_parse_block : ev.
End Methods.

(** The knot. *)
Lemma recs_at_evolve n : recs_evolve (recs_at n).
Proof.
  induction n as [|n IH]; cbn [recs_at]; unfold recs_evolve; cbn [r_expr r_factor r_type r_fields r_stmt r_block].
  - refine (conj _ (conj _ (conj _ (conj _ (conj _ _))))); intros; apply evolves_nofuel.
  - refine (conj _ (conj _ (conj _ (conj _ (conj _ _)))));
      [now apply ev_parse_expression|now apply ev_parse_factor|now apply ev_parse_type|intros; now apply ev_parse_field_list
      |now apply ev_parse_statement|now apply ev_parse_block].
Qed.

End WithUnicode.
