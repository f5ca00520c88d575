(** Cutting the parser off deeper does not change runs that are not cut off. *)
From Coq Require Import String List NArith Bool Arith Lia.
From Verif Require Import ListUtil Runes Token Tokenizer Ast Ext Heap Classes Prog Parser Units.
Import ListNotations.
Local Open Scope list_scope.

Section WithUnicode.
Context {U : Unicode}.

Definition ple {A} (p q : prog A) : Prop := forall s, run p s = OStuck \/ run q s = run p s.
Lemma ple_refl {A} (p : prog A) : ple p p.
Proof. intros s. now right. Qed.
Lemma ple_nofuel {A} (p : prog A) : ple NoFuel p.
Proof. intros s. now left. Qed.
Lemma ple_bind {A B} (p q : prog A) (k k' : A -> prog B) :
  ple p q -> (forall a, ple (k a) (k' a)) -> ple (Bind p k) (Bind q k').
Proof.
  intros H K s. cbn [run]. destruct (H s) as [E|E]; rewrite E; [now left|].
  destruct (run p s) as [a s'|e s'| | |]; auto. apply K.
Qed.
Lemma ple_attempt {A} (p q : prog (option A)) : ple p q -> ple (Attempt p) (Attempt q).
Proof.
  intros H s. cbn [run]. destruct (s_cur s); auto. destruct (ctx_clone _ _) as [[h c]|]; auto.
  destruct (H (with_heap h s)) as [E|E]; rewrite E; auto.
Qed.
Lemma ple_scoped {A} (p q : prog A) : ple p q -> ple (Scoped p) (Scoped q).
Proof.
  intros H s. cbn [run]. destruct (ctx_stack _ _) as [[h c]|]; auto.
  destruct (H (with_heap h s)) as [E|E]; rewrite E; auto.
Qed.
Lemma ple_traced {A} (p q : prog A) : ple p q -> ple (Traced p) (Traced q).
Proof. intros H s. cbn [run]. destruct (s_cur s); auto. destruct (H s) as [E|E]; rewrite E; auto. Qed.
Lemma ple_postscope {A} (p q : prog A) : ple p q -> ple (PostScope p) (PostScope q).
Proof. intros H s. cbn [run]. destruct (H (with_post [] s)) as [E|E]; rewrite E; auto. Qed.
Lemma ple_onheap {A} (f g : nat -> heap -> hres A) :
  (forall c h, f c h = HStuck \/ g c h = f c h) -> ple (OnHeap f) (OnHeap g).
Proof. intros H s. cbn [run]. destruct (H (s_ctx s) (s_heap s)) as [E|E]; rewrite E; auto. Qed.
Lemma ple_loop {S A : Type} (b b' : S -> prog (S + A)) : (forall v, ple (b v) (b' v)) ->
  forall f f' v, f <= f' -> ple (loop f b v) (loop f' b' v).
Proof.
  intros H. induction f as [|f IH]; intros [|f'] v L; try (apply ple_nofuel); [lia|].
  cbn [loop]. apply ple_bind; [apply H|]. intros [v'|a]; [apply IH; lia|apply ple_refl].
Qed.
Lemma ple_until {S : Type} f f' tm sep (fn fn' : S -> prog (option S)) v : f <= f' -> (forall v, ple (fn v) (fn' v)) ->
  ple (until f tm sep fn v) (until f' tm sep fn' v).
Proof.
  intros L H. apply ple_loop; [|exact L]. intros w. apply ple_bind; [apply H|]. intros a. apply ple_refl.
Qed.
Lemma ple_until_list {A : Type} f f' tm sep (p p' : prog A) : f <= f' -> ple p p' ->
  ple (until_list f tm sep p) (until_list f' tm sep p').
Proof.
  intros L H. apply ple_until; [exact L|]. intros v. apply ple_bind; [exact H|]. intros a. apply ple_refl.
Qed.
Lemma ple_ident_list f f' tm : f <= f' -> ple (parse_ident_list_by f tm) (parse_ident_list_by f' tm).
Proof. intros L. unfold parse_ident_list_by. apply ple_bind; [apply ple_until_list; [exact L|]|intro]; apply ple_refl. Qed.

Lemma type_is_deeper q h f : forall f' t, f <= f' -> type_is f h q t = None \/ type_is f' h q t = type_is f h q t.
Proof.
  induction f as [|f IH]; intros [|f'] t L; auto; [lia|]. cbn [type_is].
  destruct t; auto; try (destruct (ref_type h _); auto; apply IH; lia).
  destruct q; auto; apply IH; lia.
Qed.
Lemma find_member_deeper h name f : forall f' her mem pr, f <= f' ->
  find_member f h her mem name pr = None \/ find_member f' h her mem name pr = find_member f h her mem name pr.
Proof.
  induction f as [|f IH]; intros [|f'] her mem pr L; auto; [lia|]. cbn [find_member].
  destruct (find_in_sections _ _ _); auto. destruct (parent_class _ _) as [[her' mem']|]; auto. apply IH. lia.
Qed.
Lemma find_property_deeper h name asc f : forall f' her mem, f <= f' ->
  find_property f h her mem name asc = None \/ find_property f' h her mem name asc = find_property f h her mem name asc.
Proof.
  induction f as [|f IH]; intros [|f'] her mem L; auto; [lia|]. cbn [find_property].
  destruct (prop_in_sections _ _); auto. destruct asc; auto.
  destruct (parent_class _ _) as [[her' mem']|]; auto. apply IH. lia.
Qed.

Record rle (R1 R2 : recs) : Prop := mkRle {
  rle_fuel : r_fuel R1 <= r_fuel R2;
  rle_expr : ple (r_expr R1) (r_expr R2);
  rle_factor : ple (r_factor R1) (r_factor R2);
  rle_type : ple (r_type R1) (r_type R2);
  rle_fields : forall t, ple (r_fields R1 t) (r_fields R2 t);
  rle_stmt : ple (r_stmt R1) (r_stmt R2);
  rle_block : ple (r_block R1) (r_block R2) }.

Section Methods.
Variable R1 R2 : recs.
Hypothesis RL : rle R1 R2.
Let HF := rle_fuel _ _ RL.
Let H1 := rle_expr _ _ RL.
Let H2 := rle_factor _ _ RL.
Let H3 := rle_type _ _ RL.
Let H4 := rle_fields _ _ RL.
Let H5 := rle_stmt _ _ RL.
Let H6 := rle_block _ _ RL.
Create HintDb mono discriminated.
#[local] Hint Resolve HF H1 H2 H3 H4 H5 H6 : mono.
#[local] Hint Extern 1 (r_fuel _ <= r_fuel _) => exact HF : mono.
Ltac mono1 :=
  lazymatch goal with
  | |- ple ?p ?p => apply ple_refl
  | |- ple (Bind _ _) (Bind _ _) => apply ple_bind; [|intro]
  | |- ple (match ?x with _ => _ end) _ => destruct x
  | |- ple (let _ := _ in _) _ => cbn zeta
  | |- ple (loop _ _ _) (loop _ _ _) => apply ple_loop; [intro|exact HF]
  | |- ple (until _ _ _ _ _) _ => apply ple_until; [exact HF|intro]
  | |- ple (until_list _ _ _ _) _ => apply ple_until_list; [exact HF|]
  | |- ple (parse_ident_list_by _ _) _ => apply ple_ident_list; exact HF
  | |- ple (Attempt _) _ => apply ple_attempt
  | |- ple (Scoped _) _ => apply ple_scoped
  | |- ple (Traced _) _ => apply ple_traced
  | |- ple (PostScope _) _ => apply ple_postscope
  | |- ple (OnHeap _) _ => apply ple_onheap; intros ? ?
  | |- ple _ _ => solve [auto with mono nocore]
  | |- _ \/ _ =>
      first [ match goal with |- context [type_is (r_fuel R1) ?h ?q ?t] =>
                let E := fresh in destruct (type_is_deeper q h _ _ t HF) as [E|E]; rewrite E; auto end
            | match goal with |- context [find_member (r_fuel R1) ?h ?a ?b ?n ?c] =>
                let E := fresh in destruct (find_member_deeper h n _ _ a b c HF) as [E|E]; rewrite E; auto end
            | match goal with |- context [find_property (r_fuel R1) ?h ?a ?b ?n ?c] =>
                let E := fresh in destruct (find_property_deeper h n c _ _ a b HF) as [E|E]; rewrite E; auto end ]
  end.
Ltac mono := repeat mono1.

Lemma m_parse_qual_ids  : ple (parse_qual_ids R1 ) (parse_qual_ids R2 ).
Proof. unfold parse_qual_ids. mono. Qed.
#[local] Hint Resolve m_parse_qual_ids : mono.
Lemma m_expr_list_step (terminator : predicator) (l : list expr) : ple (expr_list_step R1 terminator l) (expr_list_step R2 terminator l).
Proof. unfold expr_list_step. mono. Qed.
#[local] Hint Resolve m_expr_list_step : mono.
Lemma m_parse_expr_list (terminator : predicator) : ple (parse_expr_list R1 terminator) (parse_expr_list R2 terminator).
Proof. unfold parse_expr_list. mono. Qed.
#[local] Hint Resolve m_parse_expr_list : mono.
Lemma m_designator_step (items : list ditem) : ple (designator_step R1 items) (designator_step R2 items).
Proof. unfold designator_step. mono. Qed.
#[local] Hint Resolve m_designator_step : mono.
Lemma m_parse_designator  : ple (parse_designator R1 ) (parse_designator R2 ).
Proof. unfold parse_designator. mono. Qed.
#[local] Hint Resolve m_parse_designator : mono.
Lemma m_parse_set_element  : ple (parse_set_element R1 ) (parse_set_element R2 ).
Proof. unfold parse_set_element. mono. Qed.
#[local] Hint Resolve m_parse_set_element : mono.
Lemma m_parse_set_constructor  : ple (parse_set_constructor R1 ) (parse_set_constructor R2 ).
Proof. unfold parse_set_constructor. mono. Qed.
#[local] Hint Resolve m_parse_set_constructor : mono.
Lemma m_parse_cast (t0 : token) (d : dref) : ple (parse_cast R1 t0 d) (parse_cast R2 t0 d).
Proof. unfold parse_cast. mono. Qed.
#[local] Hint Resolve m_parse_cast : mono.
Lemma m_parse_designator_factor  : ple (parse_designator_factor R1 ) (parse_designator_factor R2 ).
Proof. unfold parse_designator_factor. mono. Qed.
#[local] Hint Resolve m_parse_designator_factor : mono.
Lemma m_parse_factor  : ple (parse_factor R1 ) (parse_factor R2 ).
Proof. unfold parse_factor. mono. Qed.
#[local] Hint Resolve m_parse_factor : mono.
Lemma m_term_step (l : list (gostring * factor)) : ple (term_step R1 l) (term_step R2 l).
Proof. unfold term_step. mono. Qed.
#[local] Hint Resolve m_term_step : mono.
Lemma m_parse_term  : ple (parse_term R1 ) (parse_term R2 ).
Proof. unfold parse_term. mono. Qed.
#[local] Hint Resolve m_parse_term : mono.
Lemma m_simple_step (l : list (gostring * term)) : ple (simple_step R1 l) (simple_step R2 l).
Proof. unfold simple_step. mono. Qed.
#[local] Hint Resolve m_simple_step : mono.
Lemma m_parse_simple_expression  : ple (parse_simple_expression R1 ) (parse_simple_expression R2 ).
Proof. unfold parse_simple_expression. mono. Qed.
#[local] Hint Resolve m_parse_simple_expression : mono.
Lemma m_expression_step (l : list (gostring * sexpr)) : ple (expression_step R1 l) (expression_step R2 l).
Proof. unfold expression_step. mono. Qed.
#[local] Hint Resolve m_expression_step : mono.
Lemma m_parse_expression  : ple (parse_expression R1 ) (parse_expression R2 ).
Proof. unfold parse_expression. mono. Qed.
#[local] Hint Resolve m_parse_expression : mono.
Lemma m_parse_const_expr  : ple (parse_const_expr R1 ) (parse_const_expr R2 ).
Proof. unfold parse_const_expr. mono. Qed.
#[local] Hint Resolve m_parse_const_expr : mono.
Lemma m_parse_subrange_for_identifier  : ple (parse_subrange_for_identifier R1 ) (parse_subrange_for_identifier R2 ).
Proof. unfold parse_subrange_for_identifier. mono. Qed.
#[local] Hint Resolve m_parse_subrange_for_identifier : mono.
Lemma m_parse_type_for_identifier  : ple (parse_type_for_identifier R1 ) (parse_type_for_identifier R2 ).
Proof. unfold parse_type_for_identifier. mono. Qed.
#[local] Hint Resolve m_parse_type_for_identifier : mono.
Lemma m_parse_const_subrange  : ple (parse_const_subrange R1 ) (parse_const_subrange R2 ).
Proof. unfold parse_const_subrange. mono. Qed.
#[local] Hint Resolve m_parse_const_subrange : mono.
Lemma m_parse_enum_element  : ple (parse_enum_element R1 ) (parse_enum_element R2 ).
Proof. unfold parse_enum_element. mono. Qed.
#[local] Hint Resolve m_parse_enum_element : mono.
Lemma m_enum_step (l : list (ident * option expr)) : ple (enum_step R1 l) (enum_step R2 l).
Proof. unfold enum_step. mono. Qed.
#[local] Hint Resolve m_enum_step : mono.
Lemma m_parse_enumerated_type  : ple (parse_enumerated_type R1 ) (parse_enumerated_type R2 ).
Proof. unfold parse_enumerated_type. mono. Qed.
#[local] Hint Resolve m_parse_enumerated_type : mono.
Lemma m_parse_string_of_string_type  : ple (parse_string_of_string_type R1 ) (parse_string_of_string_type R2 ).
Proof. unfold parse_string_of_string_type. mono. Qed.
#[local] Hint Resolve m_parse_string_of_string_type : mono.
Lemma m_parse_type_as_ordinal  : ple (parse_type_as_ordinal R1 ) (parse_type_as_ordinal R2 ).
Proof. unfold parse_type_as_ordinal. mono. Qed.
#[local] Hint Resolve m_parse_type_as_ordinal : mono.
Lemma m_parse_array_type  : ple (parse_array_type R1 ) (parse_array_type R2 ).
Proof. unfold parse_array_type. mono. Qed.
#[local] Hint Resolve m_parse_array_type : mono.
Lemma m_parse_set_type  : ple (parse_set_type R1 ) (parse_set_type R2 ).
Proof. unfold parse_set_type. mono. Qed.
#[local] Hint Resolve m_parse_set_type : mono.
Lemma m_parse_field_decl (terminator : predicator) : ple (parse_field_decl R1 terminator) (parse_field_decl R2 terminator).
Proof. unfold parse_field_decl. mono. Qed.
#[local] Hint Resolve m_parse_field_decl : mono.
Lemma m_parse_rec_variant  : ple (parse_rec_variant R1 ) (parse_rec_variant R2 ).
Proof. unfold parse_rec_variant. mono. Qed.
#[local] Hint Resolve m_parse_rec_variant : mono.
Lemma m_rec_variants_step (l : list recvariant) : ple (rec_variants_step R1 l) (rec_variants_step R2 l).
Proof. unfold rec_variants_step. mono. Qed.
#[local] Hint Resolve m_rec_variants_step : mono.
Lemma m_parse_variant_section  : ple (parse_variant_section R1 ) (parse_variant_section R2 ).
Proof. unfold parse_variant_section. mono. Qed.
#[local] Hint Resolve m_parse_variant_section : mono.
Lemma m_field_decls_step (terminator : predicator) (l : list fielddecl) : ple (field_decls_step R1 terminator l) (field_decls_step R2 terminator l).
Proof. unfold field_decls_step. mono. Qed.
#[local] Hint Resolve m_field_decls_step : mono.
Lemma m_parse_field_list (terminator : predicator) : ple (parse_field_list R1 terminator) (parse_field_list R2 terminator).
Proof. unfold parse_field_list. mono. Qed.
#[local] Hint Resolve m_parse_field_list : mono.
Lemma m_parse_rec_type  : ple (parse_rec_type R1 ) (parse_rec_type R2 ).
Proof. unfold parse_rec_type. mono. Qed.
#[local] Hint Resolve m_parse_rec_type : mono.
Lemma m_parse_struc_type  : ple (parse_struc_type R1 ) (parse_struc_type R2 ).
Proof. unfold parse_struc_type. mono. Qed.
#[local] Hint Resolve m_parse_struc_type : mono.
Lemma m_parse_parameter (end_ : string) : ple (parse_parameter R1 end_) (parse_parameter R2 end_).
Proof. unfold parse_parameter. mono. Qed.
#[local] Hint Resolve m_parse_parameter : mono.
Lemma m_parse_formal_parm (end_ : string) : ple (parse_formal_parm R1 end_) (parse_formal_parm R2 end_).
Proof. unfold parse_formal_parm. mono. Qed.
#[local] Hint Resolve m_parse_formal_parm : mono.
Lemma m_parse_formal_parameters (start_ end_ : string) : ple (parse_formal_parameters R1 start_ end_) (parse_formal_parameters R2 start_ end_).
Proof. unfold parse_formal_parameters. mono. Qed.
#[local] Hint Resolve m_parse_formal_parameters : mono.
Lemma m_parse_procedure_type  : ple (parse_procedure_type R1 ) (parse_procedure_type R2 ).
Proof. unfold parse_procedure_type. mono. Qed.
#[local] Hint Resolve m_parse_procedure_type : mono.
Lemma m_parse_function_heading  : ple (parse_function_heading R1 ) (parse_function_heading R2 ).
Proof. unfold parse_function_heading. mono. Qed.
#[local] Hint Resolve m_parse_function_heading : mono.
Lemma m_parse_class_heritage  : ple (parse_class_heritage R1 ) (parse_class_heritage R2 ).
Proof. unfold parse_class_heritage. mono. Qed.
#[local] Hint Resolve m_parse_class_heritage : mono.
Lemma m_parse_class_field  : ple (parse_class_field R1 ) (parse_class_field R2 ).
Proof. unfold parse_class_field. mono. Qed.
#[local] Hint Resolve m_parse_class_field : mono.
Lemma m_class_fields_step (l : list (list ident * typ)) : ple (class_fields_step R1 l) (class_fields_step R2 l).
Proof. unfold class_fields_step. mono. Qed.
#[local] Hint Resolve m_class_fields_step : mono.
Lemma m_parse_class_field_list  : ple (parse_class_field_list R1 ) (parse_class_field_list R2 ).
Proof. unfold parse_class_field_list. mono. Qed.
#[local] Hint Resolve m_parse_class_field_list : mono.
Lemma m_parse_class_method_directive_list  : ple (parse_class_method_directive_list R1 ) (parse_class_method_directive_list R2 ).
Proof. unfold parse_class_method_directive_list. mono. Qed.
#[local] Hint Resolve m_parse_class_method_directive_list : mono.
Lemma m_parse_constructor_heading  : ple (parse_constructor_heading R1 ) (parse_constructor_heading R2 ).
Proof. unfold parse_constructor_heading. mono. Qed.
#[local] Hint Resolve m_parse_constructor_heading : mono.
Lemma m_parse_class_method  : ple (parse_class_method R1 ) (parse_class_method R2 ).
Proof. unfold parse_class_method. mono. Qed.
#[local] Hint Resolve m_parse_class_method : mono.
Lemma m_class_methods_step (l : list cmethod) : ple (class_methods_step R1 l) (class_methods_step R2 l).
Proof. unfold class_methods_step. mono. Qed.
#[local] Hint Resolve m_class_methods_step : mono.
Lemma m_parse_class_method_list  : ple (parse_class_method_list R1 ) (parse_class_method_list R2 ).
Proof. unfold parse_class_method_list. mono. Qed.
#[local] Hint Resolve m_parse_class_method_list : mono.
Lemma m_parse_property_interface  : ple (parse_property_interface R1 ) (parse_property_interface R2 ).
Proof. unfold parse_property_interface. mono. Qed.
#[local] Hint Resolve m_parse_property_interface : mono.
Lemma m_find_member_decl (her : option (list typeid)) (mem : list csection) (name : gostring) : ple (find_member_decl R1 her mem name) (find_member_decl R2 her mem name).
Proof. unfold find_member_decl. mono. Qed.
#[local] Hint Resolve m_find_member_decl : mono.
Lemma m_parse_accessor (word : string) (her : option (list typeid)) (mem : list csection) : ple (parse_accessor R1 word her mem) (parse_accessor R2 word her mem).
Proof. unfold parse_accessor. mono. Qed.
#[local] Hint Resolve m_parse_accessor : mono.
Lemma m_parse_stored (her : option (list typeid)) (mem : list csection) : ple (parse_stored R1 her mem) (parse_stored R2 her mem).
Proof. unfold parse_stored. mono. Qed.
#[local] Hint Resolve m_parse_stored : mono.
Lemma m_parse_class_property (her : option (list typeid)) (mem : list csection) : ple (parse_class_property R1 her mem) (parse_class_property R2 her mem).
Proof. unfold parse_class_property. mono. Qed.
#[local] Hint Resolve m_parse_class_property : mono.
Lemma m_class_props_step (her : option (list typeid)) (mem : list csection) (l : list cprop) : ple (class_props_step R1 her mem l) (class_props_step R2 her mem l).
Proof. unfold class_props_step. mono. Qed.
#[local] Hint Resolve m_class_props_step : mono.
Lemma m_parse_class_property_list (her : option (list typeid)) (mem : list csection) : ple (parse_class_property_list R1 her mem) (parse_class_property_list R2 her mem).
Proof. unfold parse_class_property_list. mono. Qed.
#[local] Hint Resolve m_parse_class_property_list : mono.
Lemma m_parse_class_member_section (her : option (list typeid)) (secs : list csection) : ple (parse_class_member_section R1 her secs) (parse_class_member_section R2 her secs).
Proof. unfold parse_class_member_section. mono. Qed.
#[local] Hint Resolve m_parse_class_member_section : mono.
Lemma m_class_sections_step (her : option (list typeid)) (secs : list csection) : ple (class_sections_step R1 her secs) (class_sections_step R2 her secs).
Proof. unfold class_sections_step. mono. Qed.
#[local] Hint Resolve m_class_sections_step : mono.
Lemma m_parse_class_member_sections (her : option (list typeid)) : ple (parse_class_member_sections R1 her) (parse_class_member_sections R2 her).
Proof. unfold parse_class_member_sections. mono. Qed.
#[local] Hint Resolve m_parse_class_member_sections : mono.
Lemma m_parse_class_type  : ple (parse_class_type R1 ) (parse_class_type R2 ).
Proof. unfold parse_class_type. mono. Qed.
#[local] Hint Resolve m_parse_class_type : mono.
Lemma m_parse_class_type_or_class_ref  : ple (parse_class_type_or_class_ref R1 ) (parse_class_type_or_class_ref R2 ).
Proof. unfold parse_class_type_or_class_ref. mono. Qed.
#[local] Hint Resolve m_parse_class_type_or_class_ref : mono.
Lemma m_parse_type  : ple (parse_type R1 ) (parse_type R2 ).
Proof. unfold parse_type. mono. Qed.
#[local] Hint Resolve m_parse_type : mono.
Lemma m_parse_type_decl  : ple (parse_type_decl R1 ) (parse_type_decl R2 ).
Proof. unfold parse_type_decl. mono. Qed.
#[local] Hint Resolve m_parse_type_decl : mono.
Lemma m_type_section_step (l : list typedecl) : ple (type_section_step R1 l) (type_section_step R2 l).
Proof. unfold type_section_step. mono. Qed.
#[local] Hint Resolve m_type_section_step : mono.
Lemma m_parse_type_section (required : bool) : ple (parse_type_section R1 required) (parse_type_section R2 required).
Proof. unfold parse_type_section. mono. Qed.
#[local] Hint Resolve m_parse_type_section : mono.
Lemma m_parse_constant_decl  : ple (parse_constant_decl R1 ) (parse_constant_decl R2 ).
Proof. unfold parse_constant_decl. mono. Qed.
#[local] Hint Resolve m_parse_constant_decl : mono.
Lemma m_const_section_step (l : list constdecl) : ple (const_section_step R1 l) (const_section_step R2 l).
Proof. unfold const_section_step. mono. Qed.
#[local] Hint Resolve m_const_section_step : mono.
Lemma m_parse_const_section (required : bool) : ple (parse_const_section R1 required) (parse_const_section R2 required).
Proof. unfold parse_const_section. mono. Qed.
#[local] Hint Resolve m_parse_const_section : mono.
Lemma m_parse_var_decl  : ple (parse_var_decl R1 ) (parse_var_decl R2 ).
Proof. unfold parse_var_decl. mono. Qed.
#[local] Hint Resolve m_parse_var_decl : mono.
Lemma m_var_section_step (l : list vardecl) : ple (var_section_step R1 l) (var_section_step R2 l).
Proof. unfold var_section_step. mono. Qed.
#[local] Hint Resolve m_var_section_step : mono.
Lemma m_parse_var_section (required : bool) : ple (parse_var_section R1 required) (parse_var_section R2 required).
Proof. unfold parse_var_section. mono. Qed.
#[local] Hint Resolve m_parse_var_section : mono.
Lemma m_parse_threadvar_decl  : ple (parse_threadvar_decl R1 ) (parse_threadvar_decl R2 ).
Proof. unfold parse_threadvar_decl. mono. Qed.
#[local] Hint Resolve m_parse_threadvar_decl : mono.
Lemma m_threadvar_section_step (l : list threadvardecl) : ple (threadvar_section_step R1 l) (threadvar_section_step R2 l).
Proof. unfold threadvar_section_step. mono. Qed.
#[local] Hint Resolve m_threadvar_section_step : mono.
Lemma m_parse_threadvar_section (required : bool) : ple (parse_threadvar_section R1 required) (parse_threadvar_section R2 required).
Proof. unfold parse_threadvar_section. mono. Qed.
#[local] Hint Resolve m_parse_threadvar_section : mono.
Lemma m_stmt_list_step (terminator : predicator) (l : list stmt) : ple (stmt_list_step R1 terminator l) (stmt_list_step R2 terminator l).
Proof. unfold stmt_list_step. mono. Qed.
#[local] Hint Resolve m_stmt_list_step : mono.
Lemma m_parse_stmt_list (terminator : predicator) : ple (parse_stmt_list R1 terminator) (parse_stmt_list R2 terminator).
Proof. unfold parse_stmt_list. mono. Qed.
#[local] Hint Resolve m_parse_stmt_list : mono.
Lemma m_parse_compound_stmt  : ple (parse_compound_stmt R1 ) (parse_compound_stmt R2 ).
Proof. unfold parse_compound_stmt. mono. Qed.
#[local] Hint Resolve m_parse_compound_stmt : mono.
Lemma m_parse_designator_statement  : ple (parse_designator_statement R1 ) (parse_designator_statement R2 ).
Proof. unfold parse_designator_statement. mono. Qed.
#[local] Hint Resolve m_parse_designator_statement : mono.
Lemma m_parse_asm  : ple (parse_asm R1 ) (parse_asm R2 ).
Proof. unfold parse_asm. mono. Qed.
#[local] Hint Resolve m_parse_asm : mono.
Lemma m_parse_if  : ple (parse_if R1 ) (parse_if R2 ).
Proof. unfold parse_if. mono. Qed.
#[local] Hint Resolve m_parse_if : mono.
Lemma m_parse_case_label  : ple (parse_case_label R1 ) (parse_case_label R2 ).
Proof. unfold parse_case_label. mono. Qed.
#[local] Hint Resolve m_parse_case_label : mono.
Lemma m_case_labels_step (l : list (expr * option expr)) : ple (case_labels_step R1 l) (case_labels_step R2 l).
Proof. unfold case_labels_step. mono. Qed.
#[local] Hint Resolve m_case_labels_step : mono.
Lemma m_parse_case_selector  : ple (parse_case_selector R1 ) (parse_case_selector R2 ).
Proof. unfold parse_case_selector. mono. Qed.
#[local] Hint Resolve m_parse_case_selector : mono.
Lemma m_case_selectors_step (l : list (list (expr * option expr) * stmt)) : ple (case_selectors_step R1 l) (case_selectors_step R2 l).
Proof. unfold case_selectors_step. mono. Qed.
#[local] Hint Resolve m_case_selectors_step : mono.
Lemma m_parse_case  : ple (parse_case R1 ) (parse_case R2 ).
Proof. unfold parse_case. mono. Qed.
#[local] Hint Resolve m_parse_case : mono.
Lemma m_parse_repeat  : ple (parse_repeat R1 ) (parse_repeat R2 ).
Proof. unfold parse_repeat. mono. Qed.
#[local] Hint Resolve m_parse_repeat : mono.
Lemma m_parse_while  : ple (parse_while R1 ) (parse_while R2 ).
Proof. unfold parse_while. mono. Qed.
#[local] Hint Resolve m_parse_while : mono.
Lemma m_parse_for  : ple (parse_for R1 ) (parse_for R2 ).
Proof. unfold parse_for. mono. Qed.
#[local] Hint Resolve m_parse_for : mono.
Lemma m_parse_with  : ple (parse_with R1 ) (parse_with R2 ).
Proof. unfold parse_with. mono. Qed.
#[local] Hint Resolve m_parse_with : mono.
Lemma m_parse_raise  : ple (parse_raise R1 ) (parse_raise R2 ).
Proof. unfold parse_raise. mono. Qed.
#[local] Hint Resolve m_parse_raise : mono.
Lemma m_parse_handler  : ple (parse_handler R1 ) (parse_handler R2 ).
Proof. unfold parse_handler. mono. Qed.
#[local] Hint Resolve m_parse_handler : mono.
Lemma m_handlers_step (l : list (option ident * typ * stmt)) : ple (handlers_step R1 l) (handlers_step R2 l).
Proof. unfold handlers_step. mono. Qed.
#[local] Hint Resolve m_handlers_step : mono.
Lemma m_parse_exception_block  : ple (parse_exception_block R1 ) (parse_exception_block R2 ).
Proof. unfold parse_exception_block. mono. Qed.
#[local] Hint Resolve m_parse_exception_block : mono.
Lemma m_parse_try  : ple (parse_try R1 ) (parse_try R2 ).
Proof. unfold parse_try. mono. Qed.
#[local] Hint Resolve m_parse_try : mono.
Lemma m_parse_statement_body  : ple (parse_statement_body R1 ) (parse_statement_body R2 ).
Proof. unfold parse_statement_body. mono. Qed.
#[local] Hint Resolve m_parse_statement_body : mono.
Lemma m_parse_statement  : ple (parse_statement R1 ) (parse_statement R2 ).
Proof. unfold parse_statement. mono. Qed.
#[local] Hint Resolve m_parse_statement : mono.
Lemma m_parse_function_directives  : ple (parse_function_directives R1 ) (parse_function_directives R2 ).
Proof. unfold parse_function_directives. mono. Qed.
#[local] Hint Resolve m_parse_function_directives : mono.
Lemma m_parse_optional_directives  : ple (parse_optional_directives R1 ) (parse_optional_directives R2 ).
Proof. unfold parse_optional_directives. mono. Qed.
#[local] Hint Resolve m_parse_optional_directives : mono.
Lemma m_parse_exported_heading  : ple (parse_exported_heading R1 ) (parse_exported_heading R2 ).
Proof. unfold parse_exported_heading. mono. Qed.
#[local] Hint Resolve m_parse_exported_heading : mono.
Lemma m_parse_procedure_decl_section  : ple (parse_procedure_decl_section R1 ) (parse_procedure_decl_section R2 ).
Proof. unfold parse_procedure_decl_section. mono. Qed.
#[local] Hint Resolve m_parse_procedure_decl_section : mono.
Lemma m_parse_decl_section  : ple (parse_decl_section R1 ) (parse_decl_section R2 ).
Proof. unfold parse_decl_section. mono. Qed.
#[local] Hint Resolve m_parse_decl_section : mono.
Lemma m_decl_sections_step (l : list declsection) : ple (decl_sections_step R1 l) (decl_sections_step R2 l).
Proof. unfold decl_sections_step. mono. Qed.
#[local] Hint Resolve m_decl_sections_step : mono.
Lemma m_parse_decl_sections  : ple (parse_decl_sections R1 ) (parse_decl_sections R2 ).
Proof. unfold parse_decl_sections. mono. Qed.
#[local] Hint Resolve m_parse_decl_sections : mono.
Lemma m_parse_exports_item  : ple (parse_exports_item R1 ) (parse_exports_item R2 ).
Proof. unfold parse_exports_item. mono. Qed.
#[local] Hint Resolve m_parse_exports_item : mono.
Lemma m_parse_exports_stmt  : ple (parse_exports_stmt R1 ) (parse_exports_stmt R2 ).
Proof. unfold parse_exports_stmt. mono. Qed.
#[local] Hint Resolve m_parse_exports_stmt : mono.
Lemma m_exports_step (l : list (list exportsitem)) : ple (exports_step R1 l) (exports_step R2 l).
Proof. unfold exports_step. mono. Qed.
#[local] Hint Resolve m_exports_step : mono.
Lemma m_parse_exports_stmts  : ple (parse_exports_stmts R1 ) (parse_exports_stmts R2 ).
Proof. unfold parse_exports_stmts. mono. Qed.
#[local] Hint Resolve m_parse_exports_stmts : mono.
Lemma m_parse_block  : ple (parse_block R1 ) (parse_block R2 ).
Proof. unfold parse_block. mono. Qed.
#[local] Hint Resolve m_parse_block : mono.
Lemma m_parse_uses_clause : ple (parse_uses_clause R1) (parse_uses_clause R2).
Proof. unfold parse_uses_clause. mono. Qed.
#[local] Hint Resolve m_parse_uses_clause : mono.
Lemma m_parse_uses_next : ple (parse_uses_next R1) (parse_uses_next R2).
Proof. unfold parse_uses_next. mono. Qed.
#[local] Hint Resolve m_parse_uses_next : mono.
Lemma m_parse_unit_intf_uses u : ple (parse_unit_intf_uses R1 u) (parse_unit_intf_uses R2 u).
Proof. unfold parse_unit_intf_uses. mono. Qed.
#[local] Hint Resolve m_parse_unit_intf_uses : mono.
Lemma m_parse_ident_and_intf_uses uc : ple (parse_ident_and_intf_uses R1 uc) (parse_ident_and_intf_uses R2 uc).
Proof. unfold parse_ident_and_intf_uses. mono. Qed.
#[local] Hint Resolve m_parse_ident_and_intf_uses : mono.
Lemma m_intf_decls_step l : ple (intf_decls_step R1 l) (intf_decls_step R2 l).
Proof. unfold intf_decls_step. mono. Qed.
#[local] Hint Resolve m_intf_decls_step : mono.
Lemma m_parse_unit_intf_body u : ple (parse_unit_intf_body R1 u) (parse_unit_intf_body R2 u).
Proof. unfold parse_unit_intf_body. mono. Qed.
#[local] Hint Resolve m_parse_unit_intf_body : mono.
Lemma m_process_intf_body uc u : ple (process_intf_body R1 uc u) (process_intf_body R2 uc u).
Proof. unfold process_intf_body. mono. Qed.
Lemma m_parse_impl_uses uc u : ple (parse_impl_uses R1 uc u) (parse_impl_uses R2 uc u).
Proof. unfold parse_impl_uses. mono. Qed.
#[local] Hint Resolve m_parse_impl_uses : mono.
Lemma m_parse_impl_body u : ple (parse_impl_body R1 u) (parse_impl_body R2 u).
Proof. unfold parse_impl_body. mono. Qed.
#[local] Hint Resolve m_parse_impl_body : mono.
Lemma m_parse_init_section : ple (parse_init_section R1) (parse_init_section R2).
Proof. unfold parse_init_section. mono. Qed.
#[local] Hint Resolve m_parse_init_section : mono.
Lemma m_parse_unit_end u : ple (parse_unit_end R1 u) (parse_unit_end R2 u).
Proof. unfold parse_unit_end. mono. Qed.
#[local] Hint Resolve m_parse_unit_end : mono.
Lemma m_parse_unit uc : ple (parse_unit R1 uc) (parse_unit R2 uc).
Proof. unfold parse_unit. mono. Qed.
Lemma m_parse_program_head pc : ple (parse_program_head R1 pc) (parse_program_head R2 pc).
Proof. unfold parse_program_head. mono. Qed.
Lemma m_parse_program_rest pa l : ple (parse_program_rest R1 pa l) (parse_program_rest R2 pa l).
Proof. unfold parse_program_rest. mono. Qed.

(** Methods that work on several parsers *)
Definition rsl {A} (r q : result A) : Prop := r = RStuck \/ q = r.
Lemma rsl_refl {A} (r : result A) : rsl r r.
Proof. now right. Qed.
Lemma rsl_bind {A B} (r q : result A) (k k' : A -> heap -> result B) :
  rsl r q -> (forall a h, rsl (k a h) (k' a h)) -> rsl (rbind r k) (rbind q k').
Proof. intros [-> | ->] K; [now left|]. destruct r; cbn; try (now right). apply K. Qed.
Lemma rsl_parser {A} (o o' : outcome A) : o = OStuck \/ o' = o -> rsl (on_parser o) (on_parser o').
Proof. intros [-> | ->]; [now left|apply rsl_refl]. Qed.
Lemma rsl_each {A B} (f g : A -> heap -> result B) : (forall a h, rsl (f a h) (g a h)) ->
  forall l h, rsl (each_of f l h) (each_of g l h).
Proof.
  intros H. induction l as [|a l IH]; intros h; [apply rsl_refl|]. cbn [each_of].
  apply rsl_bind; [apply H|]. intros b h1. apply rsl_bind; [apply IH|]. intros; apply rsl_refl.
Qed.
Lemma m_process_impl_and_init uc u s :
  process_impl_and_init R1 uc u s = OStuck \/ process_impl_and_init R2 uc u s = process_impl_and_init R1 uc u s.
Proof.
  unfold process_impl_and_init.
  assert (P : ple (Bind (parse_impl_uses R1 uc u) (fun l => impl_scope uc u l)) (Bind (parse_impl_uses R2 uc u) (fun l => impl_scope uc u l))) by mono.
  destruct (P s) as [E|E]; rewrite E; auto. clear E P.
  destruct (run (Bind (parse_impl_uses R1 uc u) _) s) as [m s1|e s1| | |]; auto.
  assert (Q : ple (Bind (parse_impl_body R1 u) (fun _ => parse_unit_end R1 u)) (Bind (parse_impl_body R2 u) (fun _ => parse_unit_end R2 u))) by mono.
  destruct (Q s1) as [E1|E1]; rewrite E1; auto.
Qed.
Section Program.
Variables (files : gostring -> option (list rune)) (sep : rune) (order : string_set -> list gostring)
  (topo : list gostring -> list (gostring * gostring) -> option (list gostring)).
Lemma m_load_unit pc cp h : rsl (load_unit R1 files pc cp h) (load_unit R2 files pc cp h).
Proof.
  unfold load_unit. destruct cp as [uc path]. destruct (files path); [|apply rsl_refl]. apply rsl_bind.
  - apply rsl_parser. assert (P : ple (Bind Next (fun _ => parse_ident_and_intf_uses R1 uc)) (Bind Next (fun _ => parse_ident_and_intf_uses R2 uc))) by mono.
    apply P.
  - intros; apply rsl_refl.
Qed.
Lemma m_load_units pc pa us h : rsl (load_units R1 files sep order topo pc pa us h) (load_units R2 files sep order topo pc pa us h).
Proof.
  unfold load_units. destruct (unit_contexts _ _ _ _) as [cps h1]. apply rsl_bind; [apply rsl_each; intros; apply m_load_unit|].
  intros ps h2. destruct (sort_units _ _ _ _ _) as [sorted|]; [|apply rsl_refl].
  apply rsl_bind; [apply rsl_each; intros p h'|].
  - apply rsl_bind; [|intros; apply rsl_refl]. apply rsl_parser, m_process_intf_body.
  - intros l h'. apply rsl_bind; [apply rsl_each; intros p h3|intros; apply rsl_refl].
    apply rsl_bind; [|intros; apply rsl_refl]. apply rsl_parser, m_process_impl_and_init.
Qed.
Lemma m_parse_program path : rsl (parse_program R1 files sep order topo path) (parse_program R2 files sep order topo path).
Proof.
  unfold parse_program. destruct (files path) as [text|]; [|apply rsl_refl].
  destruct (new_program_context heap0 path) as [h pc]. destruct (run Next _) as [c s|e s| | |]; try apply rsl_refl.
  apply rsl_bind; [|intros; apply rsl_refl]. unfold parse_program_at.
  apply rsl_bind; [apply rsl_parser, m_parse_program_head|]. intros [[pa l] s1] h1.
  apply rsl_bind; [destruct l; [apply m_load_units|apply rsl_refl]|]. intros _ h2.
  apply rsl_bind; [apply rsl_parser, m_parse_program_rest|]. intros; apply rsl_refl.
Qed.
End Program.
End Methods.

Lemma rle_recs m : forall n, m <= n -> rle (recs_at m) (recs_at n).
Proof.
  induction m as [|m IH]; intros n L.
  - constructor; try (intros; apply ple_nofuel). destruct n; cbn; lia.
  - destruct n as [|n]; [lia|]. specialize (IH n ltac:(lia)).
    constructor; cbn [recs_at r_fuel r_expr r_factor r_type r_fields r_stmt r_block]; [lia|..]; intros.
    + now apply m_parse_expression.
    + now apply m_parse_factor.
    + now apply m_parse_type.
    + now apply m_parse_field_list.
    + now apply m_parse_statement.
    + now apply m_parse_block.
Qed.
Lemma ple_deeper {A} (p q : prog A) s : ple p q -> run p s <> OStuck -> run q s = run p s.
Proof. intros H N. destruct (H s); [contradiction|assumption]. Qed.

Theorem depth_does_not_matter :
  forall m n s, m <= n ->
  (run (parse_expression (recs_at m)) s <> OStuck -> run (parse_expression (recs_at n)) s = run (parse_expression (recs_at m)) s) /\
  (run (parse_type (recs_at m)) s <> OStuck -> run (parse_type (recs_at n)) s = run (parse_type (recs_at m)) s) /\
  (run (parse_statement (recs_at m)) s <> OStuck -> run (parse_statement (recs_at n)) s = run (parse_statement (recs_at m)) s) /\
  (run (parse_block (recs_at m)) s <> OStuck -> run (parse_block (recs_at n)) s = run (parse_block (recs_at m)) s) /\
  (forall uc, run (parse_unit (recs_at m) uc) s <> OStuck -> run (parse_unit (recs_at n) uc) s = run (parse_unit (recs_at m) uc) s).
Proof.
  intros m n s L. pose proof (rle_recs m n L) as RL.
  repeat split; intros; apply ple_deeper; auto using m_parse_expression, m_parse_type, m_parse_statement, m_parse_block, m_parse_unit.
Qed.
Theorem program_depth_does_not_matter :
  forall files sep order topo path m n, m <= n ->
  parse_program (recs_at m) files sep order topo path <> RStuck ->
  parse_program (recs_at n) files sep order topo path = parse_program (recs_at m) files sep order topo path.
Proof.
  intros files sep order topo path m n L N. destruct (m_parse_program _ _ (rle_recs m n L) files sep order topo path); [contradiction|assumption].
Qed.
End WithUnicode.
