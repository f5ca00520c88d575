(** What is accepted for a node is written as it: statements, declarations and blocks. *)
From Coq Require Import String List NArith Bool Arith Lia.
From Verif Require Import ListUtil Runes Token Tokenizer LexShape Ast Ext Heap Classes Prog Parser Units ParseSpec RunFacts SimFacts FormSpec FormFacts FormParse.
Import ListNotations.
Local Open Scope list_scope.

Section WithUnicode.
Context {U : Unicode} {UOK : UnicodeOk U}.
#[local] Opaque takes.
#[local] Hint Constants Opaque : takes.
#[local] Hint Resolve idle_get idle_node idle_get_node idle_set idle_addpost idle_runpost idle_unit_identifier idle_namespace_identifier idle_declare_type : idle.
#[local] Hint Resolve f_parse_qual_id f_parse_ident f_parse_ident_list_by f_parse_string_factor f_parse_number_factor : takes.

Notation words := (list gostring).
Section Methods.
Context (R : recs) (RF : recs_forms R).
#[local] Hint Resolve h_expr h_stmt h_block f_parse_qual_ids f_parse_expr_list f_parse_designator f_parse_expression f_parse_const_expr f_parse_type
  f_parse_function_heading : takes.

(** ** Declarations *)
Lemma f_parse_type_decl c : takes [] c (parse_type_decl R) (fun d ws _ => typedecl_f d ws).
Proof. unfold parse_type_decl. go. Qed.
#[local] Hint Resolve f_parse_type_decl : takes.
(** Sections: a loop over elements with a semicolon behind each, that of the last perhaps missing *)
Lemma tk_sections {X} (f : X -> form) (body : list X -> prog (list X + list X)) n c :
  (forall l pre c, ended ";" (map f l) pre -> takes pre c (body l) (fun r ws c' =>
     match r with inl l' => ended ";" (map f l') ws | inr l' => loose1 ";" (map f l') ws end)) ->
  takes [] c (loop n body []) (fun l ws _ => loose1 ";" (map f l) ws).
Proof. intros B. apply tk_loop with (J := fun l ws _ => ended ";" (map f l) ws); [exact B|reflexivity]. Qed.
Lemma f_parse_type_section b c : takes [] c (parse_type_section R b)
  (fun o ws c' => match o with Some l => cat (word "TYPE") (loose1 ";" (map typedecl_f l)) ws | None => b = false /\ ws = [] /\ c' = c end).
Proof.
  unfold parse_type_section, section_head. go;
  (eapply tk_bind; [apply tk_sections with (f := typedecl_f); intros l pre c0 J; unfold type_section_step; go|intros; norm; go]).
Qed.
Lemma f_parse_constant_decl c : takes [] c (parse_constant_decl R) (fun d ws _ => constdecl_f d ws).
Proof. unfold parse_constant_decl. go. Qed.
#[local] Hint Resolve f_parse_type_section f_parse_constant_decl : takes.
Lemma tk_ended {X} (f : X -> form) (body : list X -> prog (list X + list X)) n c :
  (forall l pre c, ended ";" (map f l) pre -> takes pre c (body l) (fun r ws c' =>
     match r with inl l' => ended ";" (map f l') ws | inr l' => l' <> [] /\ ended ";" (map f l') ws end)) ->
  takes [] c (loop n body []) (fun l ws _ => filled (map f l) (ended ";" (map f l)) ws).
Proof.
  intros B. eapply tk_weak.
  - apply tk_loop with (J := fun l ws _ => ended ";" (map f l) ws) (F := fun l ws _ => l <> [] /\ ended ";" (map f l) ws); [exact B|reflexivity].
  - intros l ws c' [N H]. split; [now destruct l|exact H].
Qed.
Lemma f_parse_const_section b c : takes [] c (parse_const_section R b)
  (fun o ws c' => match o with Some l => cat (word "CONST") (filled (map constdecl_f l) (ended ";" (map constdecl_f l))) ws | None => b = false /\ ws = [] /\ c' = c end).
Proof.
  unfold parse_const_section, section_head. go;
  (eapply tk_bind; [apply tk_ended with (f := constdecl_f); intros l pre c0 J; unfold const_section_step; go|intros; norm; go]).
Qed.
Lemma f_parse_var_decl c : takes [] c (parse_var_decl R) (fun d ws _ => vardecl_f d ws).
Proof. unfold parse_var_decl. go. Qed.
#[local] Hint Resolve f_parse_const_section f_parse_var_decl : takes.
Lemma f_parse_var_section b c : takes [] c (parse_var_section R b)
  (fun o ws c' => match o with Some l => cat (word "VAR") (loose1 ";" (map vardecl_f l)) ws | None => b = false /\ ws = [] /\ c' = c end).
Proof.
  unfold parse_var_section, section_head. go;
  (eapply tk_bind; [apply tk_sections with (f := vardecl_f); intros l pre c0 J; unfold var_section_step; go|intros; norm; go]).
Qed.
Lemma f_parse_threadvar_decl c : takes [] c (parse_threadvar_decl R) (fun d ws _ => threadvardecl_f d ws).
Proof. unfold parse_threadvar_decl. go. Qed.
#[local] Hint Resolve f_parse_var_section f_parse_threadvar_decl : takes.
Lemma f_parse_threadvar_section b c : takes [] c (parse_threadvar_section R b)
  (fun o ws c' => match o with Some l => cat (word "THREADVAR") (filled (map threadvardecl_f l) (ended ";" (map threadvardecl_f l))) ws | None => b = false /\ ws = [] /\ c' = c end).
Proof.
  unfold parse_threadvar_section, section_head. go;
  (eapply tk_bind; [apply tk_ended with (f := threadvardecl_f); intros l pre c0 J; unfold threadvar_section_step; go|intros; norm; go]).
Qed.
#[local] Hint Resolve f_parse_threadvar_section : takes.

(** ** Statements *)
Lemma f_parse_stmt_list te c :
  takes [] c (parse_stmt_list R te) (fun l ws c' => loose1 ";" (map stmt_f l) ws /\ at_token (fun t => te t = true) c').
Proof.
  unfold parse_stmt_list. apply tk_loop with (J := fun l ws _ => ended ";" (map stmt_f l) ws); [|reflexivity].
  intros l pre c0 J. unfold stmt_list_step. go.
Qed.
#[local] Hint Resolve f_parse_stmt_list : takes.
Lemma f_parse_compound_stmt c : takes [] c (parse_compound_stmt R) (fun s ws _ => sbody_f s ws).
Proof. unfold parse_compound_stmt. go. Qed.
Lemma f_parse_designator_statement c : takes [] c (parse_designator_statement R) (fun s ws _ => sbody_f s ws).
Proof. unfold parse_designator_statement. go. Qed.
Lemma f_parse_inherited c : takes [] c parse_inherited (fun s ws _ => sbody_f s ws).
Proof. unfold parse_inherited. go. Qed.
Lemma f_parse_goto c : takes [] c parse_goto (fun s ws _ => sbody_f s ws).
Proof. unfold parse_goto. go. Qed.
Lemma f_parse_asm c : takes [] c (parse_asm R) (fun s ws _ => sbody_f s ws).
Proof.
  unfold parse_asm. go. eapply tk_bind.
  - apply tk_loop with (J := fun _ _ _ => True) (F := fun _ ws _ => exists a, ws = a ++ [rs "END"]); [|exact I].
    intros [] pre c0 _. unfold asm_step. go. apply tk_ret. exists (pre ++ left_behind c0). cbn [left_behind]. now rewrite (kw_val "END" t0) by assumption.
  - intros a ws c' (v & ->). apply tk_ret. cbn [sbody_f left_behind app]. apply cat_say; [weq|]. exists v, [rs "END"]. repeat split.
Qed.
#[local] Hint Resolve f_parse_compound_stmt f_parse_designator_statement f_parse_inherited f_parse_goto f_parse_asm : takes.
Lemma f_parse_if c : takes [] c (parse_if R) (fun s ws _ => sbody_f s ws).
Proof. unfold parse_if. go. Qed.
Lemma f_parse_case_label c : takes [] c (parse_case_label R) (fun x ws _ => label_f x ws).
Proof. unfold parse_case_label. go. Qed.
#[local] Hint Resolve f_parse_if f_parse_case_label : takes.
Definition selector_f (x : list (expr * option expr) * stmt) : form :=
  match x with (ls, s) => cat (between "," (map label_f ls)) (cat (word ":") (stmt_f s)) end.
Lemma f_parse_case_selector c : takes [] c (parse_case_selector R) (fun x ws _ => selector_f x ws).
Proof.
  unfold parse_case_selector, selector_f. eapply tk_bind.
  - apply tk_loop with (J := fun l ws _ => ended "," (map label_f l) ws) (F := fun l ws _ => between "," (map label_f l) ws); [|reflexivity].
    intros l pre c0 J. unfold case_labels_step. go.
  - intros. norm. go.
Qed.
#[local] Hint Resolve f_parse_case_selector : takes.
Lemma f_parse_case c : takes [] c (parse_case R) (fun s ws _ => sbody_f s ws).
Proof.
  unfold parse_case. go. eapply tk_bind.
  - apply tk_row with (f := fun x : list (expr * option expr) * stmt => match x with
      (ls, s) => cat (between "," (map label_f ls)) (cat (word ":") (cat (stmt_f s) (word ";"))) end).
    intros l pre c0 J. unfold case_selectors_step. go;
      match goal with H : selector_f ?x _ |- _ => destruct x; unfold selector_f in H; norm; go end.
  - intros. norm. go.
Qed.
Lemma f_parse_repeat c : takes [] c (parse_repeat R) (fun s ws _ => sbody_f s ws).
Proof. unfold parse_repeat. go. Qed.
Lemma f_parse_while c : takes [] c (parse_while R) (fun s ws _ => sbody_f s ws).
Proof. unfold parse_while. go. Qed.
Lemma f_parse_for c : takes [] c (parse_for R) (fun s ws _ => sbody_f s ws).
Proof. unfold parse_for. go. Qed.
Lemma f_parse_with c : takes [] c (parse_with R) (fun s ws _ => sbody_f s ws).
Proof. unfold parse_with. go. Qed.
Lemma f_parse_raise c : takes [] c (parse_raise R) (fun s ws _ => sbody_f s ws).
Proof. unfold parse_raise. go. Qed.
#[local] Hint Resolve f_parse_case f_parse_repeat f_parse_while f_parse_for f_parse_with f_parse_raise : takes.
Definition handler_f (x : option ident * typ * stmt) : form :=
  match x with
  | (i, t, s) => cat (cased (rs "ON")) (cat (opt (fun i => cat (mention i) (word ":")) i) (cat (typ_f t) (cat (cased (rs "DO")) (stmt_f s))))
  end.
Lemma f_parse_handler c : takes [] c (parse_handler R) (fun x ws _ => handler_f x ws).
Proof. unfold parse_handler, handler_f. go. Qed.
#[local] Hint Resolve f_parse_handler : takes.
Definition handlers_f (hs : list (option ident * typ * stmt)) : form :=
  row (map (fun x => match x with
                     | (i, t, s) => cat (cased (rs "ON")) (cat (opt (fun i => cat (mention i) (word ":")) i)
                                    (cat (typ_f t) (cat (cased (rs "DO")) (cat (stmt_f s) (maybe (word ";"))))))
                     end) hs).
Definition exception_f (x : list (option ident * typ * stmt) * option (list stmt)) : form :=
  match x with
  | (hs, els) => cat match hs with
                     | [] => opt (fun l => loose1 ";" (map stmt_f l)) els
                     | _ => cat (handlers_f hs) (cat (opt (fun l => cat (word "ELSE") (loose1 ";" (map stmt_f l))) els) (maybe (word ";")))
                     end (word "END")
  end.
Lemma f_handlers n c : takes [] c (loop n (handlers_step R) []) (fun hs ws _ => hs <> [] /\ handlers_f hs ws).
Proof.
  apply tk_loop with (J := fun hs ws _ => handlers_f hs ws); [|reflexivity].
  intros l pre c0 J. unfold handlers_f in *. unfold handlers_step. go;
    match goal with H : handler_f ?x _ |- _ => destruct x as [[? ?] ?]; unfold handler_f in H; norm; go end.
Qed.
#[local] Hint Resolve f_handlers : takes.
Lemma f_parse_exception_block c : takes [] c (parse_exception_block R) (fun x ws _ => exception_f x ws).
Proof.
  unfold parse_exception_block, exception_f. go; (destruct a as [|h hs]; [congruence|]); go.
Qed.
#[local] Hint Resolve f_parse_exception_block : takes.
Lemma f_parse_try c : takes [] c (parse_try R) (fun s ws _ => sbody_f s ws).
Proof.
  unfold parse_try. go. apply tk_ret.
  change (cat (word "TRY") (cat (loose1 ";" (map stmt_f a)) (cat (word "EXCEPT") (exception_f (l, o1))))
    (((([] ++ left_behind (Some t)) ++ ws) ++ left_behind (Some t0)) ++ ws0)).
  mem.
Qed.
#[local] Hint Resolve f_parse_try : takes.
Lemma f_parse_statement_body c : takes [] c (parse_statement_body R) (fun s ws _ => sbody_f s ws).
Proof. unfold parse_statement_body. go. Qed.
#[local] Hint Resolve f_parse_statement_body : takes.
Lemma f_parse_statement c : takes [] c (parse_statement R) (fun s ws _ => stmt_f s ws).
Proof. unfold parse_statement. go. Qed.
#[local] Hint Resolve f_parse_statement : takes.

(** ** Functions and blocks *)
Lemma f_parse_external_options c : takes [] c (parse_external_options)
  (fun o ws _ => cat (fun v => v = left_behind c) (external_f o) ws).
Proof.
  unfold parse_external_options. go; apply tk_ret; apply words_end; rewrite <- !app_assoc; cbn [app]; apply cat_assoc; (apply cat_app; [reflexivity|]);
    cbn [left_behind app]; pieces.
Qed.
#[local] Hint Resolve f_parse_external_options : takes.
Lemma directives_snoc l o pre d x o' ws : directives_f l o pre -> o' = (if is_external d then x else o) ->
  cat (cased d) (if is_external d then external_f x else nothing) ws ->
  directives_f (l ++ [d]) o' (pre ++ ws ++ [rs ";"]).
Proof.
  intros (ds & E1 & E2 & H) -> Hw. exists (ds ++ [(d, x)]). split; [now rewrite map_app, E1|]. split.
  - now rewrite fold_left_app, E2.
  - rewrite map_app. cbn [map fst snd]. apply ended_snoc, cat_app; [exact H|]. apply cat_app; [exact Hw|reflexivity].
Qed.
Lemma f_parse_function_directives c : takes [] c (parse_function_directives R) (fun x ws _ => directives_f (fst x) (snd x) ws).
Proof.
  unfold parse_function_directives. apply tk_loop with (J := fun x ws _ => directives_f (fst x) (snd x) ws).
  - intros [l o] pre c0 J. cbn [fst snd] in J. unfold directives_step. go.
    + apply tk_ret. cbn [fst snd left_behind]. rewrite <- app_assoc, (sym_val ";" t0) by assumption.
      apply directives_snoc with (o := o) (x := a); [exact J|unfold is_external; unfold eqs in *; now rewrite Heqb0|].
      unfold is_external. unfold eqs in *. rewrite Heqb0. apply cat_cased; [reflexivity|assumption].
    + apply tk_ret. cbn [fst snd left_behind]. rewrite <- app_assoc, (sym_val ";" t0) by assumption.
      apply directives_snoc with (o := o) (x := None); [exact J|unfold is_external; unfold eqs in *; now rewrite Heqb0|].
      unfold is_external. unfold eqs in *. rewrite Heqb0. apply cat_cased; [reflexivity|reflexivity].
  - exists []. repeat split.
Qed.
#[local] Hint Resolve f_parse_function_directives : takes.
Lemma f_parse_optional_directives c : takes [] c (parse_optional_directives R) (fun x ws _ => dirs_f (fst x) (snd x) ws).
Proof. unfold parse_optional_directives. go. Qed.
#[local] Hint Resolve f_parse_optional_directives : takes.
Lemma f_parse_procedure_decl_section c : takes [] c (parse_procedure_decl_section R)
  (fun o ws c' => match o with Some d => declsection_f d ws | None => ws = [] /\ c' = c end).
Proof. unfold parse_procedure_decl_section. go. Qed.
Lemma f_parse_label_decl_section c : takes [] c parse_label_decl_section
  (fun o ws c' => match o with Some d => declsection_f d ws | None => ws = [] /\ c' = c end).
Proof. unfold parse_label_decl_section. go. Qed.
#[local] Hint Resolve f_parse_procedure_decl_section f_parse_label_decl_section : takes.
Lemma f_parse_decl_section c : takes [] c (parse_decl_section R)
  (fun o ws c' => match o with Some d => declsection_f d ws | None => ws = [] /\ c' = c end).
Proof. unfold parse_decl_section. go. Qed.
#[local] Hint Resolve f_parse_decl_section : takes.
Lemma f_parse_decl_sections c : takes [] c (parse_decl_sections R)
  (fun o ws _ => opt (fun l => row (map (fun d => cat (declsection_f d) (maybe (word ";"))) l)) o ws).
Proof.
  unfold parse_decl_sections. eapply tk_bind.
  - apply tk_row with (f := fun d => cat (declsection_f d) (maybe (word ";"))). intros l pre c0 J. unfold decl_sections_step. go.
  - intros l ws c' H. apply tk_ret. destruct l; exact H.
Qed.
Lemma f_parse_exports_item c : takes [] c (parse_exports_item R) (fun x ws _ => exportsitem_f x ws).
Proof. unfold parse_exports_item. go. Qed.
#[local] Hint Resolve f_parse_decl_sections f_parse_exports_item : takes.
Definition exported_f (x : list exportsitem) : form := cat (word "EXPORTS") (cat (between "," (map exportsitem_f x)) (word ";")).
Lemma f_parse_exports_stmt c : takes [] c (parse_exports_stmt R)
  (fun o ws c' => match o with Some x => exported_f x ws | None => ws = [] /\ c' = c end).
Proof. unfold parse_exports_stmt, exported_f. go. Qed.
#[local] Hint Resolve f_parse_exports_stmt : takes.
Lemma f_parse_exports_stmts c : takes [] c (parse_exports_stmts R) (fun o ws _ => opt exports_f o ws).
Proof.
  unfold parse_exports_stmts. eapply tk_bind.
  - apply tk_row with (f := exported_f). intros l pre c0 J. unfold exports_step. go.
  - intros l ws c' H. apply tk_ret. destruct l; exact H.
Qed.
#[local] Hint Resolve f_parse_exports_stmts : takes.
Lemma f_parse_block c : takes [] c (parse_block R) (fun b ws _ => block_f b ws).
Proof. unfold parse_block. go; apply tk_ret; red_f; eexists _, _; (split; [reflexivity|]); mem. Qed.

(** ** Sections of units *)
#[local] Hint Resolve f_parse_stmt_list : takes.
Lemma f_parse_exported_heading c : takes [] c (parse_exported_heading R) (fun d ws _ => intfdecl_f d ws).
Proof. unfold parse_exported_heading, intfdecl_f. go. Qed.
#[local] Hint Resolve f_parse_exported_heading : takes.
Lemma f_intf_decls n c : takes [] c (loop n (intf_decls_step R) []) (fun l ws _ => row (map intfdecl_f l) ws).
Proof.
  apply tk_row. intros l pre c0 J. unfold intf_decls_step. apply tk_cur. intros t E.
  assert (Z : takes pre c0 (Ret (inr l)) (fun (r : list intfdecl + list intfdecl) ws _ =>
    match r with inl l' => row (map intfdecl_f l') ws | inr l' => row (map intfdecl_f l') ws end)) by now apply tk_ret.
  assert (K : forall (A : Type) (p : prog A) (g : A -> intfdecl) (F : A -> words -> option token -> Prop), takes [] c0 p F -> (forall a ws c', F a ws c' -> intfdecl_f (g a) ws) ->
    takes pre c0 (Bind p (fun a => Ret (inl (l ++ [g a])))) (fun (r : list intfdecl + list intfdecl) ws _ =>
    match r with inl l' => row (map intfdecl_f l') ws | inr l' => row (map intfdecl_f l') ws end)).
  { intros A p g F T I0. eapply tk_bind; [exact T|]. intros a ws c' H. apply tk_ret. apply I0 in H. rewrite map_app. cbn [map]. apply row_app.
    apply cat_app; [exact J|]. rewrite <- (app_nil_r ws). now apply cat_app. }
  destruct (p_type EOF t); [exact Z|]. destruct (negb _); [apply tk_failat|]. cbv zeta.
  repeat (match goal with |- takes _ _ (if ?b then _ else _) _ => destruct b end);
    first [exact Z
          |eapply K; [first [apply f_parse_type_section|apply f_parse_var_section|apply f_parse_threadvar_section
                            |apply f_parse_const_section|apply f_parse_exported_heading]|];
           cbv beta; first [now intros a ws c' H | intros [x|] ws c' H; [exact H|now destruct H]]].
Qed.
Lemma nonempty_some {X} (f : X -> form) w l ws : loose1 w (map f l) ws -> nonempty l = Some l.
Proof. intros [N _]. now destruct l. Qed.
Lemma f_parse_init_section c : takes [] c (parse_init_section R) (fun i ws _ => init_f i ws).
Proof.
  unfold parse_init_section, init_f. go; apply tk_ret; cbn [in_init in_final];
    repeat match goal with H : loose1 _ (map _ ?l) _ |- _ => progress rewrite ?(nonempty_some _ _ _ _ H) end; mem.
Qed.
End Methods.

(** ** The knot *)
Lemma recs_forms_at m : recs_forms (recs_at m).
Proof.
  induction m as [|m IH].
  - constructor; intros; apply tk_nofuel.
  - constructor; intros; cbn [recs_at r_expr r_factor r_type r_fields r_stmt r_block].
    + now apply f_parse_expression.
    + now apply f_parse_factor.
    + now apply f_parse_type.
    + now apply f_parse_field_list.
    + now apply f_parse_statement.
    + now apply f_parse_block.
Qed.
End WithUnicode.
