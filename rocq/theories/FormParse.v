(** What is accepted for a node is written as it: one lemma for each method of Parser.v, in
    its order. *)
From Coq Require Import String List NArith Bool Arith Lia.
From Verif Require Import ListUtil Runes Token Tokenizer LexShape Ast Ext Heap Classes Prog Parser ParseSpec RunFacts SimFacts FormSpec FormFacts.
Import ListNotations.
Local Open Scope list_scope.

Section Words.
Context {U : Unicode} {UOK : UnicodeOk U}.
Lemma cat_say v w (B : form) b : w = v -> B b -> cat (say v) B (w :: b).
Proof. intros -> Hb. now apply cat_one. Qed.
Lemma cat_cased v w (B : form) b : to_upper w = v -> B b -> cat (cased v) B (w :: b).
Proof. intros E Hb. apply cat_one; [exists w; auto|exact Hb]. Qed.
Lemma cat_lowered v w (B : form) b : to_lower w = rs v -> B b -> cat (lowered v) B (w :: b).
Proof. intros E Hb. apply cat_one; [exists w; auto|exact Hb]. Qed.
Lemma cat_some w (B : form) b : B b -> cat some_word B (w :: b).
Proof. intros Hb. apply cat_one; [exists w; auto|exact Hb]. Qed.
Lemma cat_mention t (B : form) b : B b -> cat (mention (new_ident t)) B (value t :: b).
Proof.
  intros Hb. apply cat_one; [|exact Hb]. unfold mention, either, name, say, new_ident, value. cbn [i_name].
  destruct (t_type t); auto.
Qed.
Lemma cat_row_app l1 l2 (C : form) ws : cat (row l1) (cat (row l2) C) ws -> cat (row (l1 ++ l2)) C ws.
Proof. intros H. apply cat_assoc in H. revert H. apply cat_mono. apply row_app. Qed.
Lemma cat_between w l f (C : form) ws : cat (ended w l) (cat f C) ws -> cat (between w (l ++ [f])) C ws.
Proof. intros H. apply cat_assoc in H. revert H. apply cat_mono. apply between_snoc. Qed.
Lemma cat_ended w l f (C : form) ws : cat (ended w l) (cat f (cat (word w) C)) ws -> cat (ended w (l ++ [f])) C ws.
Proof.
  intros (a & b & -> & Ha & Hb). apply cat_assoc in Hb. destruct Hb as (x & y & -> & Hx & Hy). rewrite app_assoc.
  apply cat_app; [|exact Hy]. apply ended_snoc. now apply cat_app.
Qed.
Lemma cat_loose1 w l f (C : form) ws : cat (either (between w (l ++ [f])) (ended w (l ++ [f]))) C ws -> cat (loose1 w (l ++ [f])) C ws.
Proof. apply cat_mono. intros a Ha. split; [now destruct l|exact Ha]. Qed.
Lemma text_val ty x t : p_has_text ty (rs x) t = true -> value t = rs x.
Proof. unfold p_has_text. rewrite andb_true_iff. intros [_ E]. now apply runes_equal_eq in E. Qed.
Lemma p_value_val x t : p_value (rs x) t = true -> value t = rs x.
Proof. apply runes_equal_eq. Qed.
Lemma upper_val x t : upper_eq t x = true -> to_upper (value t) = rs x.
Proof. apply runes_equal_eq. Qed.
Lemma p_upper_val x t : upper_is x t = true -> to_upper (value t) = rs x.
Proof. apply runes_equal_eq. Qed.
Lemma directive_val x t : p_directive_set [rs x] t = true -> forallb (fun r => (r <? 97)%N) (rs x) = true -> to_upper (value t) = rs x.
Proof.
  intros E Lw. apply str_in_spec in E. destruct E as [E|[]]. unfold value. destruct (t_type t); try congruence.
  rewrite <- E. now apply upper_fixed.
Qed.
End Words.

Section Rows.
Context {U : Unicode} {UOK : UnicodeOk U}.
Lemma tk_row {X} (f : X -> form) (body : list X -> prog (list X + list X)) n c :
  (forall l pre c, row (map f l) pre -> takes pre c (body l) (fun r ws _ =>
     match r with inl l' => row (map f l') ws | inr l' => row (map f l') ws end)) ->
  takes [] c (loop n body []) (fun l ws _ => row (map f l) ws).
Proof. intros B. apply tk_loop with (J := fun l ws _ => row (map f l) ws); [exact B|reflexivity]. Qed.
Lemma tk_traced0 {A} pre c (p : prog A) (F : A -> list gostring -> option token -> Prop) : takes pre c p F -> takes pre c (Traced p) F.
Proof. intros T. eapply tk_weak; [apply tk_traced; intros _; exact T|]. now intros a ws c' []. Qed.
Lemma tk_fwd pre c (F : typ -> list gostring -> option token -> Prop) : (forall a, F (TFwdClass a) pre c) ->
  takes pre c (OnHeap (fun _ h => HOk (TFwdClass (length (h_fwds h))) (with_fwds (h_fwds h ++ [None]) h))) F.
Proof. intros T text s0 s a s' P G C [= <- <-]. exists pre. split; [exact G|]. cbn [s_cur with_heap]. rewrite C. apply T. Qed.
End Rows.

Create HintDb takes discriminated.
Create HintDb idle discriminated.
Ltac red_f := cbn [expr_f sexpr_f term_f factor_f desig_f ditem_f typ_f fieldlist_f fielddecl_f variantsection_f recvariant_f
  formalparm_f heading_f csection_f cmethod_f cheading_f cprop_f stmt_f sbody_f declsection_f block_f
  qualid_f typeid_f packing visibility_f stored_f default_f label_f typedecl_f constdecl_f vardecl_f threadvardecl_f external_f dirs_f exportsitem_f
  opt map row app fst snd q_ns q_ident ir_ident ir_ref ti_unit ti_ident td_ident td_type td_port cd_ident cd_type cd_expr
    vd_idents vd_type vd_absolute vd_expr tv_idents tv_type ex_ident ex_name ex_index xo_lib xo_name].
Ltac red_fh H := cbn [expr_f sexpr_f term_f factor_f desig_f ditem_f typ_f fieldlist_f fielddecl_f variantsection_f recvariant_f
  formalparm_f heading_f csection_f cmethod_f cheading_f cprop_f stmt_f sbody_f declsection_f block_f
  qualid_f typeid_f packing visibility_f stored_f default_f label_f typedecl_f constdecl_f vardecl_f threadvardecl_f external_f dirs_f exportsitem_f
  opt map row app fst snd q_ns q_ident ir_ident ir_ref ti_unit ti_ident td_ident td_type td_port cd_ident cd_type cd_expr
    vd_idents vd_type vd_absolute vd_expr tv_idents tv_type ex_ident ex_name ex_index xo_lib xo_name] in H.
Ltac weq := solve [reflexivity | assumption | symmetry; assumption | apply sym_val; assumption | apply kw_val; assumption | apply eqs_val; assumption
  | apply ident_val; assumption | eapply text_val; eassumption | apply p_value_val; assumption].
Ltac ueq := solve [reflexivity | assumption | apply upper_val; assumption | apply p_upper_val; assumption | apply directive_val; [assumption|reflexivity]
  | apply eqs_val; assumption].
Ltac pieces := lazymatch goal with
  | |- nothing _ => reflexivity
  | |- cat nothing _ _ => apply cat_nothing; pieces
  | |- cat (cat _ _) _ _ => apply cat_assoc; pieces
  | |- cat (row []) _ _ => apply cat_nothing; pieces
  | |- cat (ended _ []) _ _ => apply cat_nothing; pieces
  | |- cat (say _) _ (_ :: _) => apply cat_say; [weq|pieces]
  | |- cat (word _) _ (_ :: _) => apply cat_say; [weq|pieces]
  | |- cat (name _) _ (_ :: _) => apply cat_say; [weq|pieces]
  | |- cat (cased _) _ (_ :: _) => apply cat_cased; [ueq|pieces]
  | |- cat (lowered _) _ (_ :: _) => apply cat_lowered; [ueq|pieces]
  | |- cat some_word _ (_ :: _) => apply cat_some; pieces
  | |- cat (mention _) _ (_ :: _) => apply cat_mention; pieces
  | |- cat (row (_ ++ _)) _ _ => apply cat_row_app; pieces
  | |- cat (between _ (_ ++ [_])) _ _ => apply cat_between; pieces
  | |- cat (ended _ (_ ++ [_])) _ _ => apply cat_ended; pieces
  | |- cat (loose1 _ (_ ++ [_])) _ _ => apply cat_loose1; pieces
  | |- _ => first [ apply cat_app; [assumption|pieces]
                  | lazymatch goal with
                    | |- cat (maybe _) _ _ => first [apply cat_left; pieces | apply cat_right; pieces]
                    | |- cat (loose _ _) _ _ => first [apply cat_left; pieces | apply cat_right; pieces]
                    | |- cat (either _ _) _ _ => first [apply cat_left; pieces | apply cat_right; pieces]
                    end
                  | progress (cbv beta delta [qualid_f typeid_f stored_f default_f label_f typedecl_f constdecl_f vardecl_f threadvardecl_f
                      external_f exportsitem_f names_f function_f exports_f]; red_f); pieces ]
  end.
Lemma words_end {U : Unicode} (L : form) ws : cat L nothing (ws ++ []) -> L ws.
Proof. rewrite app_nil_r. apply cat_end. Qed.
Ltac mem := try (match goal with |- ?P => is_evar P; fail 2 end); red_f; rewrite ?map_app; red_f; apply words_end; repeat first [progress cbn [left_behind app] | rewrite <- app_assoc]; pieces.
Ltac side := solve [assumption | reflexivity | eexists; split; [reflexivity|first [assumption|tauto]] | now intros | intros X; now apply app_eq_nil in X | tauto].
Ltac fin := cbv beta iota; repeat lazymatch goal with
  | |- exists _, _ ++ [_] = _ ++ [_] /\ _ => eexists; split; [reflexivity|]
  | |- _ /\ _ => split
  end; first [solve [side] | solve [mem]].
Ltac norm := cbv beta iota in *; repeat (match goal with
  | H : _ /\ _ |- _ => destruct H
  | H : at_token _ _ |- _ => destruct H as (? & -> & ?)
  | H : Some _ = Some _ |- _ => injection H as H; subst
  | H : ?x = Some _ |- _ => is_var x; subst x
  | H : ?x = _ |- _ => is_var x; subst x
  | H : nothing ?x |- _ => is_var x; unfold nothing in H; subst x
  | H : ex _ |- _ => destruct H
  | H : cat _ _ ?ws |- _ => destruct H as (? & ? & ? & ? & ?)
  | H : Some _ = None |- _ => discriminate H
  | H : None = Some _ |- _ => discriminate H
  | H : False |- _ => destruct H
  end; cbv beta iota in * ).
Ltac idle := solve [auto with idle nocore | lazymatch goal with |- idle (OnHeap _) => idtac end; apply idle_heap].
Ltac known := solve [eauto 2 with takes nocore].
Ltac call := lazymatch goal with
  | |- takes _ _ (match _ with _ => _ end) _ => fail
  | |- takes _ _ (until_list _ _ _ _) _ => eapply tk_until_list; intro; known
  | _ => known
  end.
Ltac go := repeat first
  [ match goal with
    | |- takes _ _ (Bind (Ret _) _) _ => apply tk_bind_ret; cbv beta iota
    | |- takes _ _ (Bind (Bind _ _) _) _ => apply tk_assoc
    | |- takes _ _ (Bind (new_type_id _ _ _) _) _ => apply tk_type_id; intro
    | |- takes _ _ (Bind (new_ident_ref _) _) _ => unfold new_ident_ref at 1
    | |- takes _ _ (Bind (FailAt _) _) _ => apply tk_bind_failat
    | |- takes _ _ (Bind (Fail _) _) _ => apply tk_bind_fail
    | |- takes _ _ (Bind Crash _) _ => apply tk_bind_crash
    | |- takes _ _ (FailAt _) _ => apply tk_failat
    | |- takes _ _ (Fail _) _ => apply tk_fail
    | |- takes _ _ Crash _ => apply tk_crash
    | |- takes _ _ NoFuel _ => apply tk_nofuel
    | |- takes _ _ (let _ := _ in _) _ => cbv zeta
    | |- takes _ _ ((fun _ => _) _) _ => cbv beta
    | |- takes _ _ (Traced _) _ => apply tk_traced0
    | |- takes _ _ (Bind (let _ := _ in _) _) _ => cbv zeta
    | |- takes _ _ (Bind cur _) _ => apply tk_cur; intros; norm
    | |- takes _ _ (Bind Cur _) _ => apply tk_Cur
    | |- takes _ _ (Bind (is _) _) _ => apply tk_is; intros; norm
    | |- takes _ _ (Bind (expect _) _) _ => apply tk_expect; intros; norm
    | |- takes _ _ (Bind (expect_or_fail _) _) _ => apply tk_expect_or_fail; intros; norm
    | |- takes _ _ (Bind next _) _ => apply tk_next; intro
    | |- takes _ _ (Bind (expect_next _) _) _ => apply tk_expect_next; intros
    | |- takes _ _ (Bind Next _) _ => apply tk_Next; intro
    end
  | lazymatch goal with
    | |- takes _ _ (Bind (match _ with _ => _ end) _) _ => fail
    | |- takes _ _ (Bind _ _) _ => first [apply tk_idle; [idle|intro] | eapply tk_bind; [call|intros; norm]]
    end
  | match goal with
    | |- takes _ _ (Ret (if ?x then _ else _)) _ => destruct x eqn:?
    | |- takes _ _ (Ret _) _ => apply tk_ret; fin
    | |- takes _ _ (match ?x with _ => _ end) _ => destruct x eqn:?; norm
    | |- takes _ _ (Bind (match ?x with _ => _ end) _) _ => destruct x eqn:?; norm
    | |- takes _ _ (Scoped _) _ => apply tk_scoped
    | |- takes _ _ (PostScope _) _ => apply tk_postscope
    | |- takes _ _ (Bind _ _) _ => fail 1
    | |- takes _ _ _ _ => eapply tk_tail; [call|intros; norm; fin]
    end ].

Section WithUnicode.
Context {U : Unicode} {UOK : UnicodeOk U}.
#[local] Opaque takes.
#[local] Hint Constants Opaque : takes.
#[local] Hint Resolve idle_get idle_node idle_get_node idle_set idle_addpost idle_runpost idle_unit_identifier idle_namespace_identifier idle_declare_type : idle.

Notation words := (list gostring).
(** The words are in the form of the result. *)
Definition as_form {A} (f : A -> form) : A -> words -> option token -> Prop := fun a ws _ => f a ws.

Lemma idle_uses_item_unit a : idle (uses_item_unit a). Proof. apply idle_heap. Qed.
Lemma idle_unit_get a n : idle (unit_get a n). Proof. apply idle_heap. Qed.
Lemma idle_program_get a n : idle (program_get a n). Proof. apply idle_heap. Qed.
#[local] Hint Resolve idle_uses_item_unit idle_unit_get idle_program_get : idle.

Lemma f_parse_qual_id c : takes [] c parse_qual_id (fun q ws _ => qualid_f q ws).
Proof. unfold parse_qual_id. go. Qed.
#[local] Hint Resolve f_parse_qual_id : takes.
Lemma f_parse_ident c : takes [] c parse_ident (fun i ws _ => name i ws).
Proof. unfold parse_ident. go. Qed.
#[local] Hint Resolve f_parse_ident : takes.
Lemma f_parse_ident_list_by fuel te c :
  takes [] c (parse_ident_list_by fuel te) (fun l ws c' => names_f l ws /\ at_token (fun t => te t = true) c').
Proof. unfold parse_ident_list_by. go. Qed.
#[local] Hint Resolve f_parse_ident_list_by : takes.
Lemma f_parse_manifest_constant t : takes [] (Some t) (parse_manifest_constant t) (fun f ws _ => factor_f f ws).
Proof. unfold parse_manifest_constant. go. Qed.
Lemma f_parse_string_factor t b : takes [] (Some t) (parse_string_factor t b) (fun v ws _ => say v ws).
Proof. unfold parse_string_factor. go. Qed.
Lemma f_parse_number_factor t b : takes [] (Some t) (parse_number_factor t b) (fun v ws _ => say v ws).
Proof. unfold parse_number_factor. go. Qed.
#[local] Hint Resolve f_parse_manifest_constant f_parse_string_factor f_parse_number_factor : takes.

Section Methods.
Context (R : recs).
Definition fields_end (te : predicator) (fl : fieldlist) (t : token) : Prop :=
  match fl with FieldList _ None => te t = true | FieldList _ (Some _) => kw "END" t = true end.
Record recs_forms : Prop := {
  rf_expr : forall c, takes [] c (r_expr R) (fun e ws _ => expr_f e ws);
  rf_factor : forall c, takes [] c (r_factor R) (fun f ws _ => factor_f f ws);
  rf_type : forall c, takes [] c (r_type R) (fun t ws _ => typ_f t ws);
  rf_fields : forall te c, takes [] c (r_fields R te) (fun fl ws c' => fieldlist_f fl ws /\ at_token (fields_end te fl) c');
  rf_stmt : forall c, takes [] c (r_stmt R) (fun s ws _ => stmt_f s ws);
  rf_block : forall c, takes [] c (r_block R) (fun b ws _ => block_f b ws) }.
Context (RF : recs_forms).
Lemma h_expr c : takes [] c (r_expr R) (fun e ws _ => expr_f e ws). Proof. apply (rf_expr RF). Qed.
Lemma h_factor c : takes [] c (r_factor R) (fun f ws _ => factor_f f ws). Proof. apply (rf_factor RF). Qed.
Lemma h_type c : takes [] c (r_type R) (fun t ws _ => typ_f t ws). Proof. apply (rf_type RF). Qed.
Lemma h_fields te c : takes [] c (r_fields R te) (fun fl ws c' => fieldlist_f fl ws /\ at_token (fields_end te fl) c'). Proof. apply (rf_fields RF). Qed.
Lemma h_stmt c : takes [] c (r_stmt R) (fun s ws _ => stmt_f s ws). Proof. apply (rf_stmt RF). Qed.
Lemma h_block c : takes [] c (r_block R) (fun b ws _ => block_f b ws). Proof. apply (rf_block RF). Qed.
#[local] Hint Resolve h_expr h_factor h_type h_fields h_stmt h_block : takes.

Lemma f_parse_qual_ids c : takes [] c (parse_qual_ids R) (fun l ws _ => between "," (map qualid_f l) ws).
Proof. unfold parse_qual_ids. eapply tk_weak; [call|]. now intros ? ? ? []. Qed.
#[local] Hint Resolve f_parse_qual_ids : takes.
Lemma f_parse_expr_list te c :
  takes [] c (parse_expr_list R te) (fun l ws c' => between "," (map expr_f l) ws /\ at_token (fun t => te t = true) c').
Proof.
  unfold parse_expr_list. apply tk_loop with (J := fun l ws _ => ended "," (map expr_f l) ws); [|reflexivity].
  intros l pre c0 J. unfold expr_list_step. go.
Qed.
#[local] Hint Resolve f_parse_expr_list : takes.
Lemma f_parse_designator c : takes [] c (parse_designator R) (fun d ws _ => desig_f d ws).
Proof.
  unfold parse_designator. go. eapply tk_bind.
  - apply tk_row with (f := ditem_f).
    intros l pre c0 J. unfold designator_step. go.
  - intros. norm. go.
Qed.
#[local] Hint Resolve f_parse_designator : takes.
Definition elem_f (x : expr * option expr) : form :=
  match x with (e, o) => cat (expr_f e) (opt (fun e2 => cat (word "..") (expr_f e2)) o) end.
Lemma f_parse_set_element c : takes [] c (parse_set_element R) (fun x ws _ => elem_f x ws).
Proof. unfold parse_set_element, elem_f. go. Qed.
#[local] Hint Resolve f_parse_set_element : takes.
Lemma f_parse_set_constructor c :
  takes [] c (parse_set_constructor R) (fun f ws c' => exists es, f = FSet es /\
    cat (word "[") (between "," (map elem_f es)) ws /\ at_token (fun t => sym "]" t = true) c').
Proof. unfold parse_set_constructor. go. apply tk_ret. eexists. fin. Qed.
#[local] Hint Resolve f_parse_set_constructor : takes.
Lemma f_parse_cast t d : p_type Identifier t = true -> takes [] (Some t) (parse_cast R t d)
  (fun o ws c' => match o with Some f => factor_f f ws | None => ws = [] /\ c' = Some t end).
Proof.
  intros I0. unfold parse_cast. apply (tk_attempt _ _ _ (fun o ws _ => match o with Some f => factor_f f ws | None => True end)). go.
Qed.
#[local] Hint Resolve f_parse_cast : takes.
Lemma f_parse_designator_factor c : takes [] c (parse_designator_factor R) (fun f ws _ => factor_f f ws).
Proof. unfold parse_designator_factor. go. Qed.
#[local] Hint Resolve f_parse_designator_factor : takes.
Lemma f_parse_factor c : takes [] c (parse_factor R) (fun f ws _ => factor_f f ws).
Proof. unfold parse_factor. go. Qed.
#[local] Hint Resolve f_parse_factor : takes.
Lemma f_parse_term c : takes [] c (parse_term R) (fun t ws _ => term_f t ws).
Proof.
  unfold parse_term. go. eapply tk_bind.
  - apply tk_row with (f := fun x : gostring * factor => match x with (o, f) => cat (say o) (factor_f f) end).
    intros l pre c0 J. unfold term_step. go.
  - intros. norm. go.
Qed.
#[local] Hint Resolve f_parse_term : takes.
Lemma f_parse_simple_expression c : takes [] c (parse_simple_expression R) (fun t ws _ => sexpr_f t ws).
Proof.
  unfold parse_simple_expression. go; (eapply tk_bind;
    [apply tk_row with (f := fun x : gostring * term => match x with (o, f) => cat (say o) (term_f f) end);
     intros l pre c0 J; unfold simple_step; go|intros; norm; go]).
Qed.
#[local] Hint Resolve f_parse_simple_expression : takes.
Lemma f_parse_expression c : takes [] c (parse_expression R) (fun t ws _ => expr_f t ws).
Proof.
  unfold parse_expression. go. eapply tk_bind.
  - apply tk_row with (f := fun x : gostring * sexpr => match x with (o, f) => cat (say o) (sexpr_f f) end).
    intros l pre c0 J. unfold expression_step. go.
  - intros. norm. go.
Qed.
#[local] Hint Resolve f_parse_expression : takes.
Lemma f_parse_const_expr c : takes [] c (parse_const_expr R) (fun t ws _ => expr_f t ws).
Proof. apply f_parse_expression. Qed.
#[local] Hint Resolve f_parse_const_expr : takes.

(** ** Types *)
Definition came {A} (c : option token) (f : A -> form) (o : option A) (ws : words) (c' : option token) : Prop :=
  match o with Some a => f a ws | None => ws = [] /\ c' = c end.
Lemma f_parse_type_id_with_unit c : takes [] c parse_type_id_with_unit (fun o ws c' => match o with Some r => typeid_f r ws | None => ws = [] /\ c' = c end).
Proof. unfold parse_type_id_with_unit. go. Qed.
#[local] Hint Resolve f_parse_type_id_with_unit : takes.
Lemma f_parse_type_id_without_unit c : takes [] c parse_type_id_without_unit (fun r ws _ => typeid_f r ws).
Proof. unfold parse_type_id_without_unit. go. Qed.
#[local] Hint Resolve f_parse_type_id_without_unit : takes.
Lemma f_parse_type_id c : takes [] c parse_type_id (fun r ws _ => typeid_f r ws).
Proof. unfold parse_type_id. go. Qed.
#[local] Hint Resolve f_parse_type_id : takes.
Lemma f_parse_embedded k b c : takes [] c (parse_embedded k b) (fun o ws c' => match o with Some r => typeid_f r ws | None => ws = [] /\ c' = c end).
Proof. unfold parse_embedded. go. Qed.
#[local] Hint Resolve f_parse_embedded : takes.
Lemma f_parse_subrange_for_identifier t : p_type Identifier t = true -> takes [] (Some t) (parse_subrange_for_identifier R)
  (fun o ws c' => match o with Some ty => typ_f ty ws | None => ws = [] /\ c' = Some t end).
Proof.
  intros I0. unfold parse_subrange_for_identifier, const_expr_of_qual_id.
  apply (tk_attempt _ _ _ (fun o ws _ => match o with Some f => typ_f f ws | None => True end)). go.
Qed.
#[local] Hint Resolve f_parse_subrange_for_identifier : takes.
Lemma f_parse_type_for_identifier t : p_type Identifier t = true ->
  takes [] (Some t) (parse_type_for_identifier R) (fun ty ws _ => typ_f ty ws).
Proof. intros I0. unfold parse_type_for_identifier. go. Qed.
Lemma f_parse_pointer_type c : takes [] c parse_pointer_type (fun ty ws _ => typ_f ty ws).
Proof. unfold parse_pointer_type. go. Qed.
Lemma f_parse_const_subrange c : takes [] c (parse_const_subrange R) (fun ty ws _ => typ_f ty ws).
Proof. unfold parse_const_subrange. go. Qed.
#[local] Hint Resolve f_parse_type_for_identifier f_parse_pointer_type f_parse_const_subrange : takes.
Definition enum_f (x : ident * option expr) : form :=
  match x with (i, o) => cat (name i) (opt (fun e => cat (word "=") (expr_f e)) o) end.
Lemma f_parse_enum_element c : takes [] c (parse_enum_element R) (fun x ws _ => cat (fun v => v = left_behind c) (enum_f x) ws).
Proof. unfold parse_enum_element. go; apply tk_ret; rewrite <- !app_assoc; cbn [app]; (apply cat_app; [reflexivity|]); unfold enum_f; fin. Qed.
Lemma f_parse_enumerated_type t : sym "(" t = true -> takes [] (Some t) (parse_enumerated_type R) (fun ty ws _ => typ_f ty ws).
Proof.
  intros S0. unfold parse_enumerated_type. eapply tk_bind.
  - apply tk_loop with (J := fun l ws c => cat (word "(") (ended "," (map enum_f l)) (ws ++ left_behind c))
      (F := fun l ws c => cat (word "(") (between "," (map enum_f l)) ws /\ at_token (fun t => sym ")" t = true) c).
    + intros l pre c J. unfold enum_step. eapply tk_bind; [apply f_parse_enum_element|]. intros x ws c' (w & v & -> & -> & Hx).
      rewrite app_assoc. destruct J as (a & b & -> & Ha & Hb). go.
    + fin.
  - intros l ws c H. norm. go.
Qed.
#[local] Hint Resolve f_parse_enumerated_type : takes.
Lemma f_parse_string_of_string_type c : takes [] c (parse_string_of_string_type R) (fun ty ws _ => typ_f ty ws).
Proof. unfold parse_string_of_string_type. go. Qed.
#[local] Hint Resolve f_parse_string_of_string_type : takes.
Lemma f_parse_type_as_ordinal c : takes [] c (parse_type_as_ordinal R) (fun ty ws _ => typ_f ty ws).
Proof. unfold parse_type_as_ordinal. go. Qed.
#[local] Hint Resolve f_parse_type_as_ordinal : takes.
Definition makes (mk : bool -> typ) (ws : words) (_ : option token) : Prop :=
  forall b pre, packing b pre -> typ_f (mk b) (pre ++ ws).
Ltac mk := apply tk_ret; intros pk pr Hp; red_f; lazymatch goal with
  | |- exists p1 p2, ?b || ?b2 || pk = _ /\ _ => exists (pk || b), b2; split; [now destruct pk|]; exists pk, b; split; [reflexivity|]; mem
  | |- packed_f (?b || pk) _ _ => exists pk, b; split; [now destruct pk|]; mem
  end.
Lemma f_parse_array_type c : takes [] c (parse_array_type R) makes.
Proof. unfold parse_array_type. go; mk. Qed.
Lemma f_parse_set_type c : takes [] c (parse_set_type R) makes.
Proof. unfold parse_set_type. go; mk. Qed.
Lemma f_parse_file_type c : takes [] c parse_file_type makes.
Proof. unfold parse_file_type. go; mk. Qed.
#[local] Hint Resolve f_parse_array_type f_parse_set_type f_parse_file_type : takes.
Lemma f_parse_field_decl te c : takes [] c (parse_field_decl R te) (fun d ws _ => fielddecl_f d ws).
Proof. unfold parse_field_decl. go. Qed.
#[local] Hint Resolve f_parse_field_decl : takes.
Lemma f_parse_rec_variant c : takes [] c (parse_rec_variant R) (fun d ws _ => recvariant_f d ws).
Proof.
  unfold parse_rec_variant. go. destruct a0 as [ds [v|]]; unfold fields_end in *; red_fh H2; norm; go.
Qed.
#[local] Hint Resolve f_parse_rec_variant : takes.
Lemma f_parse_variant_section c :
  takes [] c (parse_variant_section R) (fun v ws c' => variantsection_f v ws /\ at_token (fun t => kw "END" t = true) c').
Proof.
  unfold parse_variant_section. go. eapply tk_bind.
  - apply (tk_attempt _ _ _ (fun o ws _ => match o with Some i => cat (name i) (word ":") ws | None => True end)). go.
  - intros i ws c' H. eapply tk_bind; [call|]. intros ty wt ct Ht. go. eapply tk_bind.
    + apply tk_until with (f := recvariant_f) (Q := at_token (fun t => kw "END" t = true)). intros l c2. unfold rec_variants_step. go.
    + intros vs wv cv Hv. apply tk_ret. split.
      * assert (opt (fun i => cat (name i) (word ":")) i ws) by (destruct i; [exact H|now destruct H as [-> _]]).
        destruct Hv as [[Hv _]|[Hv _]]; fin.
      * destruct Hv as [[_ Hv]|[_ Hv]]; exact Hv.
Qed.
#[local] Hint Resolve f_parse_variant_section : takes.
Lemma f_parse_field_list te c :
  takes [] c (parse_field_list R te) (fun fl ws c' => fieldlist_f fl ws /\ at_token (fields_end te fl) c').
Proof.
  unfold parse_field_list. eapply tk_bind.
  - apply tk_until with (f := fielddecl_f) (Q := at_token (fun t => kw "CASE" t = true \/ te t = true)). intros l c2. unfold field_decls_step.
    go. apply orb_true_iff in Heqb. apply tk_ret. fin.
  - intros ds ws c' [[H Hc]|[H Hc]]; norm; go; destruct H0; discriminate.
Qed.
#[local] Hint Resolve f_parse_field_list : takes.
Lemma f_parse_rec_type c : takes [] c (parse_rec_type R) makes.
Proof. unfold parse_rec_type. go; mk. Qed.
#[local] Hint Resolve f_parse_rec_type : takes.
Lemma f_parse_struc_type c : takes [] c (parse_struc_type R) (fun ty ws _ => typ_f ty ws).
Proof.
  unfold parse_struc_type. go; unfold makes in *; apply tk_ret; cbn [app left_behind];
    match goal with H : forall b pre, _ -> _ |- _ =>
      first [apply (H false []); reflexivity | eapply (H true [_]); red_f; unfold word, say; f_equal; symmetry; weq] end.
Qed.
#[local] Hint Resolve f_parse_struc_type : takes.
Definition parm_f (x : list ident * option (typ * bool) * option expr) : form :=
  match x with
  | (ids, ty, e) =>
      cat (names_f ids)
      (cat (opt (fun x : typ * bool => match x with
                    | (t, a) => cat (word ":") (cat (if a then cat (word "ARRAY") (word "OF") else nothing)
                                (either (typ_f t) (match t, a with TNil, true => word "CONST" | _, _ => unheard end)))
                    end) ty)
      (opt (fun e => cat (word "=") (expr_f e)) e))
  end.
Lemma f_parse_parameter en c : takes [] c (parse_parameter R en) (fun x ws _ => parm_f x ws).
Proof. unfold parse_parameter, parm_f. go. Qed.
#[local] Hint Resolve f_parse_parameter : takes.
Lemma f_parse_formal_parm en c : takes [] c (parse_formal_parm R en) (fun x ws _ => formalparm_f x ws).
Proof. unfold parse_formal_parm. go; unfold parm_f in *; norm; go. Qed.
#[local] Hint Resolve f_parse_formal_parm : takes.
Lemma f_parse_formal_parameters st en c : takes [] c (parse_formal_parameters R st en)
  (fun l ws _ => cat (word st) (cat (between ";" (map formalparm_f l)) (word en)) ws).
Proof. unfold parse_formal_parameters. go. Qed.
#[local] Hint Resolve f_parse_formal_parameters : takes.
Lemma f_parse_procedure_type c : takes [] c (parse_procedure_type R) (fun ty ws _ => typ_f ty ws).
Proof. unfold parse_procedure_type. go. Qed.
Lemma f_parse_function_heading c : takes [] c (parse_function_heading R) (fun h ws _ => heading_f h ws).
Proof. unfold parse_function_heading. go. Qed.
#[local] Hint Resolve f_parse_procedure_type f_parse_function_heading : takes.

(** ** Classes *)
Lemma f_parse_class_heritage c : takes [] c (parse_class_heritage R)
  (fun o ws _ => opt (fun l => cat (word "(") (cat (between "," (map typeid_f l)) (word ")"))) o ws).
Proof. unfold parse_class_heritage. go. Qed.
#[local] Hint Resolve f_parse_class_heritage : takes.
Definition cfield_f (x : list ident * typ) : form := match x with (ids, t) => cat (names_f ids) (cat (word ":") (typ_f t)) end.
Lemma f_parse_class_field c : takes [] c (parse_class_field R) (fun x ws _ => cfield_f x ws).
Proof. unfold parse_class_field, cfield_f. go. Qed.
#[local] Hint Resolve f_parse_class_field : takes.
Lemma f_parse_class_field_list c : takes [] c (parse_class_field_list R) (fun l ws _ => loose ";" (map cfield_f l) ws).
Proof.
  unfold parse_class_field_list. apply tk_traced0. eapply tk_weak.
  - apply tk_until with (f := cfield_f) (Q := fun _ => True). intros l c2. unfold class_fields_step. go.
  - intros l ws c' [[H _]|[H _]]; [left|right]; exact H.
Qed.
#[local] Hint Resolve f_parse_class_field_list : takes.
Lemma f_parse_class_method_directive_list c :
  takes [] c (parse_class_method_directive_list R) (fun l ws _ => cat (maybe (word ";")) (loose ";" (map cased l)) ws).
Proof.
  unfold parse_class_method_directive_list. go; (eapply tk_tail;
    [apply tk_until with (f := cased) (Q := fun _ => True); intros l c2; unfold method_directives_step; go
    |intros l ws c' [[H0 _]|[H0 _]]; fin]).
Qed.
#[local] Hint Resolve f_parse_class_method_directive_list : takes.
Lemma f_parse_constructor_heading c : takes [] c (parse_constructor_heading R) (fun h ws _ => cheading_f h ws).
Proof. unfold parse_constructor_heading. go. Qed.
Lemma f_parse_destructor_heading c : takes [] c parse_destructor_heading (fun h ws _ => cheading_f h ws).
Proof. unfold parse_destructor_heading. go. Qed.
#[local] Hint Resolve f_parse_constructor_heading f_parse_destructor_heading : takes.
Lemma f_parse_class_method c : takes [] c (parse_class_method R) (fun m ws _ => cmethod_f m ws).
Proof. unfold parse_class_method. go. Qed.
#[local] Hint Resolve f_parse_class_method : takes.
Lemma f_parse_class_method_list c :
  takes [] c (parse_class_method_list R) (fun l ws _ => row (map (fun m => cat (cmethod_f m) (maybe (word ";"))) l) ws).
Proof.
  unfold parse_class_method_list. apply tk_traced0. eapply tk_weak.
  - apply tk_until_none with (f := fun m => cat (cmethod_f m) (maybe (word ";"))) (Q := fun _ => True). intros l c2. unfold class_methods_step. go.
  - now intros l ws c' [H _].
Qed.
#[local] Hint Resolve f_parse_class_method_list : takes.
Definition interface_f (x : option (list formalparm) * typeid) : form :=
  match x with
  | (ps, t) => cat (opt (fun l => cat (word "[") (cat (between ";" (map formalparm_f l)) (word "]"))) ps) (cat (word ":") (typeid_f t))
  end.
Lemma f_parse_property_interface c : takes [] c (parse_property_interface R) (fun x ws _ => interface_f x ws).
Proof. unfold parse_property_interface, interface_f. go. Qed.
#[local] Hint Resolve f_parse_property_interface : takes.
Lemma idle_find_member her mem n : idle (find_member_decl R her mem n). Proof. apply idle_heap. Qed.
#[local] Hint Resolve idle_find_member : idle.
Lemma f_parse_accessor w her mem c : takes [] c (parse_accessor R w her mem)
  (fun o ws _ => opt (fun r => cat (cased (rs w)) (mention (ir_ident r))) o ws).
Proof. unfold parse_accessor. go. Qed.
Lemma f_parse_stored her mem c : takes [] c (parse_stored R her mem) (fun o ws _ => opt stored_f o ws).
Proof. unfold parse_stored. go. Qed.
#[local] Hint Resolve f_parse_accessor f_parse_stored : takes.
Lemma f_parse_class_property her mem c : takes [] c (parse_class_property R her mem) (fun p ws _ => cprop_f p ws).
Proof. unfold parse_class_property. go. Qed.
#[local] Hint Resolve f_parse_class_property : takes.
Lemma f_parse_class_property_list her mem c : takes [] c (parse_class_property_list R her mem)
  (fun l ws _ => row (map (fun p => cat (cprop_f p) (maybe (word ";"))) l) ws).
Proof.
  unfold parse_class_property_list. apply tk_traced0. eapply tk_weak.
  - apply tk_until_none with (f := fun p => cat (cprop_f p) (maybe (word ";"))) (Q := fun _ => True). intros l c2. unfold class_props_step. go.
  - now intros l ws c' [H _].
Qed.
#[local] Hint Resolve f_parse_class_property_list : takes.
Lemma f_parse_class_member_section her secs c : takes [] c (parse_class_member_section R her secs) (fun x ws _ => csection_f x ws).
Proof. unfold parse_class_member_section. go. Qed.
#[local] Hint Resolve f_parse_class_member_section : takes.
Lemma f_parse_class_member_sections her c : takes [] c (parse_class_member_sections R her) (fun l ws _ => row (map csection_f l) ws).
Proof.
  unfold parse_class_member_sections. apply tk_traced0. eapply tk_weak.
  - apply tk_until_none with (f := csection_f) (Q := fun _ => True). intros l c2. unfold class_sections_step. go.
  - now intros l ws c' [H _].
Qed.
#[local] Hint Resolve f_parse_class_member_sections : takes.
Lemma f_parse_class_type c t : kw "CLASS" t = true ->
  takes [] c (parse_class_type R) (fun ty ws _ => typ_f ty (value t :: ws)).
Proof. intros K. unfold parse_class_type. go. Qed.
Lemma f_parse_class_type_or_class_ref c : takes [] c (parse_class_type_or_class_ref R) (fun ty ws _ => typ_f ty ws).
Proof.
  unfold parse_class_type_or_class_ref. go.
  - apply tk_fwd. intros. fin.
  - eapply tk_tail; [apply (f_parse_class_type _ t); assumption|]. intros. assumption.
Qed.
#[local] Hint Resolve f_parse_class_type_or_class_ref : takes.
Lemma f_parse_type c : takes [] c (parse_type R) (fun ty ws _ => typ_f ty ws).
Proof.
  unfold parse_type. apply tk_cur. intros t E. norm. destruct (p_type Identifier t) eqn:I0; go.
  unfold p_type in I0. match goal with H : t_type t = _ |- _ => rewrite H in I0 end. discriminate.
Qed.
#[local] Hint Resolve f_parse_type : takes.
End Methods.
End WithUnicode.
