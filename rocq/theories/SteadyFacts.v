(** The parser only adds to the cells of type names while it reads a type: a name that was not
    declared stays unresolved until the end of the type section.  One lemma for each method of
    Parser.v that reads a type, in its order. *)
From Coq Require Import String List NArith Bool Arith Lia.
From Verif Require Import ListUtil Runes Token Tokenizer Ast Ext ExtMain Heap Classes MapSpec MapFacts MapMain Prog Parser RunFacts.
Import ListNotations.
Local Open Scope list_scope.

Section WithUnicode.
Context {U : Unicode}.

Definition kept (s s' : pst) : Prop := exists l, h_refs (s_heap s') = h_refs (s_heap s) ++ l.
Definition steady {A} (p : prog A) : Prop := forall s a s', run p s = OOk a s' -> kept s s'.
Lemma kept_refl s : kept s s.
Proof. exists []. now rewrite app_nil_r. Qed.
Lemma kept_trans s1 s2 s3 : kept s1 s2 -> kept s2 s3 -> kept s1 s3.
Proof. intros (l1 & E1) (l2 & E2). exists (l1 ++ l2). now rewrite E2, E1, app_assoc. Qed.
Lemma kept_nth s s' n x : kept s s' -> nth_error (h_refs (s_heap s)) n = Some x -> nth_error (h_refs (s_heap s')) n = Some x.
Proof. intros (l & ->) E. rewrite nth_error_app1; [exact E|]. apply nth_error_Some. congruence. Qed.

Lemma steady_ret {A} (a : A) : steady (Ret a).
Proof. intros s x s' [= <- <-]. apply kept_refl. Qed.
Lemma steady_failat {A} t : steady (A := A) (FailAt t).
Proof. intros s x s'. cbn [run]. destruct (ctx_path _ _); discriminate. Qed.
Lemma steady_fail {A} e : steady (A := A) (Fail e).
Proof. discriminate 1. Qed.
Lemma steady_crash {A} : steady (A := A) Crash.
Proof. discriminate 1. Qed.
Lemma steady_nofuel {A} : steady (A := A) NoFuel.
Proof. discriminate 1. Qed.
Lemma steady_bind {A B} (p : prog A) (k : A -> prog B) : steady p -> (forall a, steady (k a)) -> steady (Bind p k).
Proof.
  intros P K s b s' E. cbn [run] in E. destruct (run p s) as [a s1| | | |] eqn:R; try discriminate.
  eapply kept_trans; [eapply P, R|eapply K, E].
Qed.
Lemma steady_next : steady Next.
Proof.
  intros s a s' E. cbn [run] in E. unfold next_token in E. destruct (get_next (s_tok s)); try discriminate; injection E as <- <-; exists []; cbn; now rewrite app_nil_r.
Qed.
Lemma steady_Cur : steady Cur.
Proof. intros s a s' [= <- <-]. apply kept_refl. Qed.
Lemma steady_addpost c n : steady (AddPost c n).
Proof. intros s a s' [= <- <-]. exists []. cbn. now rewrite app_nil_r. Qed.
Lemma steady_traced {A} (p : prog A) : steady p -> steady (Traced p).
Proof.
  intros P s a s' E. cbn [run] in E. destruct (s_cur s); [|discriminate].
  destruct (run p s) as [x s1|? s1| | |] eqn:R; try discriminate; destruct (s_cur s1); try discriminate.
  injection E as <- <-. eapply P, R.
Qed.
Lemma steady_attempt {B} (p : prog (option B)) : steady p -> steady (Attempt p).
Proof.
  intros P s a s' E. cbn [run] in E. destruct (s_cur s) as [t|]; [|discriminate].
  destruct (ctx_clone (s_heap s) (s_ctx s)) as [[h c]|] eqn:CC; [|discriminate].
  assert (Eh : h_refs h = h_refs (s_heap s)).
  { unfold ctx_clone in CC. destruct (nth_error _ _); [|discriminate]. injection CC as <- <-. reflexivity. }
  destruct (run p (with_heap h s)) as [[b|] s2| | | |] eqn:R; try discriminate; injection E as <- <-;
    apply P in R as (l & R); exists l; cbn [s_heap with_heap] in *; now rewrite R, Eh.
Qed.
Lemma ctx_put_map_refs h c m : h_refs (ctx_put_map h c m) = h_refs h.
Proof. unfold ctx_put_map. now destruct (nth_error (h_ctxs h) c). Qed.
Lemma steady_scoped {A} (p : prog A) : steady p -> steady (Scoped p).
Proof.
  intros P s a s' E. cbn [run] in E. destruct (ctx_stack (s_heap s) (s_ctx s)) as [[h1 bk]|] eqn:ST; [|discriminate].
  assert (Eh : h_refs h1 = h_refs (s_heap s)).
  { unfold ctx_stack, new_chained, new_map in ST. destruct (nth_error _ _); [|discriminate]. injection ST as <- <-.
    now rewrite ctx_put_map_refs. }
  destruct (run p (with_heap h1 s)) as [x s2|? s2| | |] eqn:R; try discriminate. injection E as <- <-.
  apply P in R as (l & R). exists l. cbn [s_heap with_heap] in *. unfold ctx_restore. now rewrite ctx_put_map_refs, R, Eh.
Qed.
Lemma steady_onheap {A} (f : nat -> heap -> hres A) :
  (forall c h a h', f c h = HOk a h' -> exists l, h_refs h' = h_refs h ++ l) -> steady (OnHeap f).
Proof.
  intros H s a s' E. cbn [run] in E. destruct (f (s_ctx s) (s_heap s)) as [x h| | |] eqn:F; try discriminate.
  injection E as <- <-. exact (H _ _ _ _ F).
Qed.

(** ** Combinations *)
Lemma steady_loop {S A} (body : S -> prog (S + A)) : (forall x, steady (body x)) -> forall fuel x, steady (loop fuel body x).
Proof.
  intros B. induction fuel as [|f IH]; intros x; cbn [loop]; [apply steady_nofuel|].
  apply steady_bind; [apply B|]. intros [y|y]; [apply IH|apply steady_ret].
Qed.
Lemma steady_validate t p : steady (validate t p).
Proof. unfold validate. destruct t as [t|]; [|apply steady_fail]. destruct (p t); [apply steady_ret|apply steady_failat]. Qed.
Lemma steady_cur : steady cur.
Proof. apply steady_bind; [apply steady_Cur|]. intros [t|]; [apply steady_ret|apply steady_crash]. Qed.
Lemma steady_is p : steady (is p).
Proof. apply steady_bind; [apply steady_cur|]. intros t. apply steady_ret. Qed.
Lemma steady_nexttok : steady next.
Proof. apply steady_bind; [apply steady_next|]. intros [t|]; [apply steady_ret|apply steady_crash]. Qed.
Lemma steady_expect p : steady (expect p).
Proof. apply steady_bind; [apply steady_Cur|]. intros t. apply steady_validate. Qed.
Lemma steady_expect_next p : steady (expect_next p).
Proof. apply steady_bind; [apply steady_next|]. intros t. apply steady_validate. Qed.
Lemma steady_expect_or_fail p : steady (expect_or_fail p).
Proof. apply steady_bind; [apply steady_cur|]. intros t. destruct (p t); [apply steady_ret|apply steady_failat]. Qed.
Lemma steady_until {S} fuel t sep (fn : S -> prog (option S)) x : (forall x, steady (fn x)) -> steady (until fuel t sep fn x).
Proof.
  intros F. apply steady_loop. intros y. apply steady_bind; [apply F|]. intros [z|]; [|apply steady_ret].
  apply steady_bind; [apply steady_Cur|]. intros [tk|]; [|apply steady_fail]. destruct (t tk); [apply steady_ret|].
  destruct sep; [|apply steady_ret]. apply steady_bind; [apply steady_validate|]. intros _.
  apply steady_bind; [apply steady_next|]. intros _. apply steady_ret.
Qed.
Lemma steady_until_list {A} fuel t sep (p : prog A) : steady p -> steady (until_list fuel t sep p).
Proof.
  intros P. apply steady_until. intros l. apply steady_bind; [exact P|]. intros a. apply steady_ret.
Qed.
Lemma steady_pure {A} (f : nat -> heap -> hres A) : (forall c h a h', f c h = HOk a h' -> h' = h) -> steady (OnHeap f).
Proof. intros H. apply steady_onheap. intros c h a h' E. apply H in E as ->. exists []; now rewrite app_nil_r. Qed.
Lemma steady_get n : steady (get n).
Proof. apply steady_pure. intros c h a h'. destruct (ctx_get h c n); congruence. Qed.
Lemma steady_node d : steady (node_of d).
Proof. apply steady_pure. intros c h a h'. destruct (deref h d); congruence. Qed.
Lemma steady_get_node n : steady (get_node n).
Proof.
  apply steady_bind; [apply steady_get|]. intros [d|]; [|apply steady_ret].
  apply steady_bind; [apply steady_node|]. intros x. apply steady_ret.
Qed.
Lemma steady_set ds : steady (set ds).
Proof.
  apply steady_onheap. intros c h a h'. destruct (ctx_set h c ds) as [h1|h1 i|] eqn:E; try discriminate. intros [= <- <-].
  unfold ctx_set in E. destruct (nth_error (h_ctxs h) c) as [o|] eqn:Eo; [|discriminate].
  unfold map_set, alloc_decls in E. set (h0 := with_decls _ h) in E.
  set (l := combine _ _) in E.
  pose proof (dset_target _ _ _ _ (or_introl E)) as On.
  exists []. rewrite app_nil_r. destruct (target (cx_map o)) as [b|]; [destruct On; auto|now subst h1].
Qed.
Lemma steady_new_type_id u i d : steady (new_type_id u i d).
Proof. apply steady_onheap. intros c h a h' [= <- <-]. cbn. eauto. Qed.

Create HintDb st.
#[local] Hint Resolve steady_ret steady_next steady_Cur steady_failat steady_fail steady_crash steady_nofuel
  steady_addpost steady_validate steady_cur steady_is steady_nexttok steady_expect
  steady_expect_next steady_expect_or_fail steady_get steady_node steady_get_node steady_set steady_new_type_id : st.
Ltac st := repeat first
  [ solve [auto with st nocore]
  | match goal with
    | |- steady (Bind _ _) => apply steady_bind; [|intro]
    | |- steady (Attempt _) => apply steady_attempt
    | |- steady (Scoped _) => apply steady_scoped
    | |- steady (Traced _) => apply steady_traced
    | |- steady (loop _ _ _) => apply steady_loop; intro
    | |- steady (until_list _ _ _ _) => apply steady_until_list
    | |- steady (until _ _ _ _ _) => apply steady_until; intro
    | |- steady (match ?x with _ => _ end) => destruct x
    | |- steady (let _ := _ in _) => cbv zeta
    | |- steady (OnHeap _) => apply steady_pure; intros ? ? ? ?;
        repeat match goal with |- context [match ?x with _ => _ end] => destruct x end; solve [congruence]
    end ].

Lemma st_is_unit_identifier (t : token) : steady (is_unit_identifier t).
Proof. unfold is_unit_identifier; st. Qed.
#[local] Hint Resolve st_is_unit_identifier : st.
Lemma st_is_namespace_identifier (t : token) : steady (is_namespace_identifier t).
Proof. unfold is_namespace_identifier; st. Qed.
#[local] Hint Resolve st_is_namespace_identifier : st.
Lemma st_new_ident_ref (t : token) : steady (new_ident_ref t).
Proof. unfold new_ident_ref; st. Qed.
#[local] Hint Resolve st_new_ident_ref : st.
Lemma st_uses_item_unit (a : nat) : steady (uses_item_unit a).
Proof. unfold uses_item_unit; st. Qed.
#[local] Hint Resolve st_uses_item_unit : st.
Lemma st_unit_get (a : nat) (name : gostring) : steady (unit_get a name).
Proof. unfold unit_get; st. Qed.
#[local] Hint Resolve st_unit_get : st.
Lemma st_program_get (a : nat) (name : gostring) : steady (program_get a name).
Proof. unfold program_get; st. Qed.
#[local] Hint Resolve st_program_get : st.
Lemma st_parse_qual_id : steady (parse_qual_id).
Proof. unfold parse_qual_id; st. Qed.
#[local] Hint Resolve st_parse_qual_id : st.
Lemma st_parse_ident : steady (parse_ident).
Proof. unfold parse_ident; st. Qed.
#[local] Hint Resolve st_parse_ident : st.
Lemma st_parse_ident_list_by (fuel : nat) (terminator : predicator) : steady (parse_ident_list_by fuel terminator).
Proof. unfold parse_ident_list_by; st. Qed.
#[local] Hint Resolve st_parse_ident_list_by : st.
Lemma st_parse_manifest_constant (t : token) : steady (parse_manifest_constant t).
Proof. unfold parse_manifest_constant; st. Qed.
#[local] Hint Resolve st_parse_manifest_constant : st.
Lemma st_parse_string_factor (t : token) (skip : bool) : steady (parse_string_factor t skip).
Proof. unfold parse_string_factor; st. Qed.
#[local] Hint Resolve st_parse_string_factor : st.
Lemma st_parse_number_factor (t : token) (skip : bool) : steady (parse_number_factor t skip).
Proof. unfold parse_number_factor; st. Qed.
#[local] Hint Resolve st_parse_number_factor : st.

(** What the recursive calls do. *)
Definition recs_steady (R : recs) : Prop :=
  steady (r_expr R) /\ steady (r_factor R) /\ steady (r_type R) /\ (forall t, steady (r_fields R t)).
Section Methods.
Context (R : recs) (RE : recs_steady R).
Lemma st_r_expr : steady (r_expr R). Proof. apply RE. Qed.
Lemma st_r_factor : steady (r_factor R). Proof. apply RE. Qed.
Lemma st_r_type : steady (r_type R). Proof. apply RE. Qed.
Lemma st_r_fields t : steady (r_fields R t). Proof. apply RE. Qed.
#[local] Hint Resolve st_r_expr st_r_factor st_r_type st_r_fields : st.

Lemma st_parse_qual_ids : steady (parse_qual_ids R).
Proof. unfold parse_qual_ids; st. Qed.
#[local] Hint Resolve st_parse_qual_ids : st.
Lemma st_expr_list_step (terminator : predicator) (l : list expr) : steady (expr_list_step R terminator l).
Proof. unfold expr_list_step; st. Qed.
#[local] Hint Resolve st_expr_list_step : st.
Lemma st_parse_expr_list (terminator : predicator) : steady (parse_expr_list R terminator).
Proof. unfold parse_expr_list; st. Qed.
#[local] Hint Resolve st_parse_expr_list : st.
Lemma st_designator_step (items : list ditem) : steady (designator_step R items).
Proof. unfold designator_step; st. Qed.
#[local] Hint Resolve st_designator_step : st.
Lemma st_parse_designator : steady (parse_designator R).
Proof. unfold parse_designator; st. Qed.
#[local] Hint Resolve st_parse_designator : st.
Lemma st_parse_set_element : steady (parse_set_element R).
Proof. unfold parse_set_element; st. Qed.
#[local] Hint Resolve st_parse_set_element : st.
Lemma st_parse_set_constructor : steady (parse_set_constructor R).
Proof. unfold parse_set_constructor; st. Qed.
#[local] Hint Resolve st_parse_set_constructor : st.
Lemma st_parse_cast (t0 : token) (d : dref) : steady (parse_cast R t0 d).
Proof. unfold parse_cast; st. Qed.
#[local] Hint Resolve st_parse_cast : st.
Lemma st_parse_designator_factor : steady (parse_designator_factor R).
Proof. unfold parse_designator_factor; st. Qed.
#[local] Hint Resolve st_parse_designator_factor : st.
Lemma st_parse_factor : steady (parse_factor R).
Proof. unfold parse_factor; st. Qed.
#[local] Hint Resolve st_parse_factor : st.
Lemma st_term_step (l : list (gostring * factor)) : steady (term_step R l).
Proof. unfold term_step; st. Qed.
#[local] Hint Resolve st_term_step : st.
Lemma st_parse_term : steady (parse_term R).
Proof. unfold parse_term; st. Qed.
#[local] Hint Resolve st_parse_term : st.
Lemma st_simple_step (l : list (gostring * term)) : steady (simple_step R l).
Proof. unfold simple_step; st. Qed.
#[local] Hint Resolve st_simple_step : st.
Lemma st_parse_simple_expression : steady (parse_simple_expression R).
Proof. unfold parse_simple_expression; st. Qed.
#[local] Hint Resolve st_parse_simple_expression : st.
Lemma st_expression_step (l : list (gostring * sexpr)) : steady (expression_step R l).
Proof. unfold expression_step; st. Qed.
#[local] Hint Resolve st_expression_step : st.
Lemma st_parse_expression : steady (parse_expression R).
Proof. unfold parse_expression; st. Qed.
#[local] Hint Resolve st_parse_expression : st.
Lemma st_parse_const_expr : steady (parse_const_expr R).
Proof. unfold parse_const_expr; st. Qed.
#[local] Hint Resolve st_parse_const_expr : st.
Lemma st_parse_type_id_with_unit : steady (parse_type_id_with_unit).
Proof. unfold parse_type_id_with_unit; st. Qed.
#[local] Hint Resolve st_parse_type_id_with_unit : st.
Lemma st_parse_type_id_without_unit : steady (parse_type_id_without_unit).
Proof. unfold parse_type_id_without_unit; st. Qed.
#[local] Hint Resolve st_parse_type_id_without_unit : st.
Lemma st_parse_type_id : steady (parse_type_id).
Proof. unfold parse_type_id; st. Qed.
#[local] Hint Resolve st_parse_type_id : st.
Lemma st_parse_embedded (k : ekind) (required : bool) : steady (parse_embedded k required).
Proof. unfold parse_embedded; st. Qed.
#[local] Hint Resolve st_parse_embedded : st.
Lemma st_parse_subrange_for_identifier : steady (parse_subrange_for_identifier R).
Proof. unfold parse_subrange_for_identifier; st. Qed.
#[local] Hint Resolve st_parse_subrange_for_identifier : st.
Lemma st_parse_type_for_identifier : steady (parse_type_for_identifier R).
Proof. unfold parse_type_for_identifier; st. Qed.
#[local] Hint Resolve st_parse_type_for_identifier : st.
Lemma st_parse_pointer_type : steady (parse_pointer_type).
Proof. unfold parse_pointer_type; st. Qed.
#[local] Hint Resolve st_parse_pointer_type : st.
Lemma st_parse_const_subrange : steady (parse_const_subrange R).
Proof. unfold parse_const_subrange; st. Qed.
#[local] Hint Resolve st_parse_const_subrange : st.
Lemma st_parse_enum_element : steady (parse_enum_element R).
Proof. unfold parse_enum_element; st. Qed.
#[local] Hint Resolve st_parse_enum_element : st.
Lemma st_enum_step (l : list (ident * option expr)) : steady (enum_step R l).
Proof. unfold enum_step; st. Qed.
#[local] Hint Resolve st_enum_step : st.
Lemma st_parse_enumerated_type : steady (parse_enumerated_type R).
Proof. unfold parse_enumerated_type; st. Qed.
#[local] Hint Resolve st_parse_enumerated_type : st.
Lemma st_parse_string_of_string_type : steady (parse_string_of_string_type R).
Proof. unfold parse_string_of_string_type; st. Qed.
#[local] Hint Resolve st_parse_string_of_string_type : st.
Lemma st_parse_type_as_ordinal : steady (parse_type_as_ordinal R).
Proof. unfold parse_type_as_ordinal; st. Qed.
#[local] Hint Resolve st_parse_type_as_ordinal : st.
Lemma st_parse_array_type : steady (parse_array_type R).
Proof. unfold parse_array_type; st. Qed.
#[local] Hint Resolve st_parse_array_type : st.
Lemma st_parse_set_type : steady (parse_set_type R).
Proof. unfold parse_set_type; st. Qed.
#[local] Hint Resolve st_parse_set_type : st.
Lemma st_parse_file_type : steady (parse_file_type).
Proof. unfold parse_file_type; st. Qed.
#[local] Hint Resolve st_parse_file_type : st.
Lemma st_parse_field_decl (terminator : predicator) : steady (parse_field_decl R terminator).
Proof. unfold parse_field_decl; st. Qed.
#[local] Hint Resolve st_parse_field_decl : st.
Lemma st_parse_rec_variant : steady (parse_rec_variant R).
Proof. unfold parse_rec_variant; st. Qed.
#[local] Hint Resolve st_parse_rec_variant : st.
Lemma st_rec_variants_step (l : list recvariant) : steady (rec_variants_step R l).
Proof. unfold rec_variants_step; st. Qed.
#[local] Hint Resolve st_rec_variants_step : st.
Lemma st_parse_variant_section : steady (parse_variant_section R).
Proof. unfold parse_variant_section; st. Qed.
#[local] Hint Resolve st_parse_variant_section : st.
Lemma st_field_decls_step (terminator : predicator) (l : list fielddecl) : steady (field_decls_step R terminator l).
Proof. unfold field_decls_step; st. Qed.
#[local] Hint Resolve st_field_decls_step : st.
Lemma st_parse_field_list (terminator : predicator) : steady (parse_field_list R terminator).
Proof. unfold parse_field_list; st. Qed.
#[local] Hint Resolve st_parse_field_list : st.
Lemma st_parse_rec_type : steady (parse_rec_type R).
Proof. unfold parse_rec_type; st. Qed.
#[local] Hint Resolve st_parse_rec_type : st.
Lemma st_parse_struc_type : steady (parse_struc_type R).
Proof. unfold parse_struc_type; st. Qed.
#[local] Hint Resolve st_parse_struc_type : st.
Lemma st_parse_parameter (end_ : string) : steady (parse_parameter R end_).
Proof. unfold parse_parameter; st. Qed.
#[local] Hint Resolve st_parse_parameter : st.
Lemma st_parse_formal_parm (end_ : string) : steady (parse_formal_parm R end_).
Proof. unfold parse_formal_parm; st. Qed.
#[local] Hint Resolve st_parse_formal_parm : st.
Lemma st_parse_formal_parameters (start_ end_ : string) : steady (parse_formal_parameters R start_ end_).
Proof. unfold parse_formal_parameters; st. Qed.
#[local] Hint Resolve st_parse_formal_parameters : st.
Lemma st_parse_procedure_type : steady (parse_procedure_type R).
Proof. unfold parse_procedure_type; st. Qed.
#[local] Hint Resolve st_parse_procedure_type : st.
Lemma st_parse_function_heading : steady (parse_function_heading R).
Proof. unfold parse_function_heading; st. Qed.
#[local] Hint Resolve st_parse_function_heading : st.
Lemma st_parse_class_heritage : steady (parse_class_heritage R).
Proof. unfold parse_class_heritage; st. Qed.
#[local] Hint Resolve st_parse_class_heritage : st.
Lemma st_parse_class_field : steady (parse_class_field R).
Proof. unfold parse_class_field; st. Qed.
#[local] Hint Resolve st_parse_class_field : st.
Lemma st_class_fields_step (l : list (list ident * typ)) : steady (class_fields_step R l).
Proof. unfold class_fields_step; st. Qed.
#[local] Hint Resolve st_class_fields_step : st.
Lemma st_parse_class_field_list : steady (parse_class_field_list R).
Proof. unfold parse_class_field_list; st. Qed.
#[local] Hint Resolve st_parse_class_field_list : st.
Lemma st_method_directives_step (l : list gostring) : steady (method_directives_step l).
Proof. unfold method_directives_step; st. Qed.
#[local] Hint Resolve st_method_directives_step : st.
Lemma st_parse_class_method_directive_list : steady (parse_class_method_directive_list R).
Proof. unfold parse_class_method_directive_list; st. Qed.
#[local] Hint Resolve st_parse_class_method_directive_list : st.
Lemma st_parse_constructor_heading : steady (parse_constructor_heading R).
Proof. unfold parse_constructor_heading; st. Qed.
#[local] Hint Resolve st_parse_constructor_heading : st.
Lemma st_parse_destructor_heading : steady (parse_destructor_heading).
Proof. unfold parse_destructor_heading; st. Qed.
#[local] Hint Resolve st_parse_destructor_heading : st.
Lemma st_parse_class_method : steady (parse_class_method R).
Proof. unfold parse_class_method; st. Qed.
#[local] Hint Resolve st_parse_class_method : st.
Lemma st_class_methods_step (l : list cmethod) : steady (class_methods_step R l).
Proof. unfold class_methods_step; st. Qed.
#[local] Hint Resolve st_class_methods_step : st.
Lemma st_parse_class_method_list : steady (parse_class_method_list R).
Proof. unfold parse_class_method_list; st. Qed.
#[local] Hint Resolve st_parse_class_method_list : st.
Lemma st_parse_property_interface : steady (parse_property_interface R).
Proof. unfold parse_property_interface; st. Qed.
#[local] Hint Resolve st_parse_property_interface : st.
Lemma st_find_member_decl (her : option (list typeid)) (mem : list csection) (name : gostring) : steady (find_member_decl R her mem name).
Proof.
  apply steady_onheap. intros c h a h'. destruct (find_member _ _ _ _ _ _) as [[d|]|]; try discriminate; intros [= <- <-];
    exists []; cbn; now rewrite app_nil_r.
Qed.
#[local] Hint Resolve st_find_member_decl : st.
Lemma st_parse_accessor (word : string) (her : option (list typeid)) (mem : list csection) : steady (parse_accessor R word her mem).
Proof. unfold parse_accessor; st. Qed.
#[local] Hint Resolve st_parse_accessor : st.
Lemma st_parse_stored (her : option (list typeid)) (mem : list csection) : steady (parse_stored R her mem).
Proof. unfold parse_stored; st. Qed.
#[local] Hint Resolve st_parse_stored : st.
Lemma st_parse_class_property (her : option (list typeid)) (mem : list csection) : steady (parse_class_property R her mem).
Proof. unfold parse_class_property; st. Qed.
#[local] Hint Resolve st_parse_class_property : st.
Lemma st_class_props_step (her : option (list typeid)) (mem : list csection) (l : list cprop) : steady (class_props_step R her mem l).
Proof. unfold class_props_step; st. Qed.
#[local] Hint Resolve st_class_props_step : st.
Lemma st_parse_class_property_list (her : option (list typeid)) (mem : list csection) : steady (parse_class_property_list R her mem).
Proof. unfold parse_class_property_list; st. Qed.
#[local] Hint Resolve st_parse_class_property_list : st.
Lemma st_parse_class_member_section (her : option (list typeid)) (secs : list csection) : steady (parse_class_member_section R her secs).
Proof. unfold parse_class_member_section; st. Qed.
#[local] Hint Resolve st_parse_class_member_section : st.
Lemma st_class_sections_step (her : option (list typeid)) (secs : list csection) : steady (class_sections_step R her secs).
Proof. unfold class_sections_step; st. Qed.
#[local] Hint Resolve st_class_sections_step : st.
Lemma st_parse_class_member_sections (her : option (list typeid)) : steady (parse_class_member_sections R her).
Proof. unfold parse_class_member_sections; st. Qed.
#[local] Hint Resolve st_parse_class_member_sections : st.
Lemma st_parse_class_type : steady (parse_class_type R).
Proof. unfold parse_class_type; st. Qed.
#[local] Hint Resolve st_parse_class_type : st.
Lemma st_parse_class_type_or_class_ref : steady (parse_class_type_or_class_ref R).
Proof.
  unfold parse_class_type_or_class_ref; st. apply steady_onheap. intros c h x h' [= <- <-]. exists []. cbn. now rewrite app_nil_r.
Qed.
#[local] Hint Resolve st_parse_class_type_or_class_ref : st.
Lemma st_parse_type : steady (parse_type R).
Proof. unfold parse_type; st. Qed.
#[local] Hint Resolve st_parse_type : st.
End Methods.

(** The knot. *)
Lemma recs_at_steady n : recs_steady (recs_at n).
Proof.
  induction n as [|n IH]; cbn [recs_at]; unfold recs_steady; cbn [r_expr r_factor r_type r_fields].
  - refine (conj _ (conj _ (conj _ _))); intros; apply steady_nofuel.
  - refine (conj _ (conj _ (conj _ _)));
      [now apply st_parse_expression|now apply st_parse_factor|now apply st_parse_type|intros; now apply st_parse_field_list].
Qed.

End WithUnicode.
