(** Every method of the parser ends, continued: statements, sections and blocks. *)
From Coq Require Import String List NArith Bool Arith Lia.
From Verif Require Import ListUtil Runes UnicodeFacts Token Tokenizer CursorFacts TokenizerFacts LexSpec LexShape LexFacts LexMain
  Ast Ext Heap Classes MapSpec MapFacts Prog Parser ParseSpec RunFacts WpFacts TermSpec TermHeap TermFacts TermExpr TermTypes
  TermClass.
Import ListNotations.
Local Open Scope list_scope.

Section WithUnicode.
Context {U : Unicode} {UOK : UnicodeOk U} {unmapped : Unmapped}.
Local Notation node_there := (node_there unmapped).
Local Notation declared := (declared unmapped).
Local Notation sound := (sound_but unmapped).
Variable text : list rune.
Variable path : gostring.
Variable lax : bool.
Variable D : nat.
Local Notation ok := (TermFacts.ok text path lax D).
Local Notation fin := (TermFacts.fin text path lax D).
Local Notation mu := (TermFacts.mu text).
Local Notation reflen := TermFacts.reflen.
Local Notation tyok := (TermExpr.tyok lax D).

(** ** ASM *)
Lemma fin_Next_tok from s (Q : option token -> pst -> Prop) : ok s ->
  (forall c s', ok s' -> s_cur s' = c -> place s <= place s' -> mu s' <= mu s -> reflen s' = reflen s ->
     (forall t', c = Some t' -> t_type t' <> EOF -> mu s' < mu s) ->
     match c with
     | Some t' => get_next (s_tok s) = GTok t' (s_tok s')
     | None => get_next (s_tok s) = GNil (s_tok s')
     end -> Q c s') ->
  fin from Next s Q.
Proof.
  intros O H.
  assert (F : fin from Next s (fun c s' => s_cur s' = c /\ reflen s' = reflen s /\
              forall t', c = Some t' -> t_type t' <> EOF -> mu s' < mu s)).
  { apply fin_Next; auto. }
  unfold TermFacts.fin in *. cbn [run] in *. unfold next_token in *.
  destruct (get_next (s_tok s)) as [t k|k|]; auto; destruct F as (O' & L & C & Rl & M);
    (split; [exact O'|]; split; [exact L|]; apply H; auto; apply L).
Qed.
Lemma kw_alike w t u : alike t u -> kw w t = kw w u.
Proof. intros (T & Rw & _). unfold kw, p_keyword, value. now rewrite T, Rw. Qed.

Variable R : recs.
Variable m : nat.
Hypothesis RG : rgood text path lax D R m.
Let HF := rg_fuel _ _ _ _ R m RG.

Lemma fin_parse_asm s : no_stray_asm text lax -> ok s -> lax = true \/ mu s <= m ->
  fin (place s) (parse_asm R) s (fun _ s' => mu s' < mu s).
Proof.
  intros NA O M. unfold parse_asm. go1. go1. rename H into C, H0 into Kt.
  assert (NE : t_type t <> EOF) by noteof. pose proof O as [(_ & AB & _) _].
  destruct (AB t C) as (k0 & t' & k' & H0 & F1 & F2 & G0 & A0 & SS0).
  assert (Hk : held text k') by (eapply held_tok; eauto).
  apply fin_join with (Q0 := fun _ s1 => mu s1 < mu s /\ exists k2, skips k' k2 /\ same_spot k2 (s_tok s1)).
  { assert (F : fin (place s) Next s (fun c s1 => mu s1 < mu s)) by (eapply fin_Next_strict; eauto).
    assert (F3 : fin (place s) Next s (fun c s1 => exists k2, skips k' k2 /\ same_spot k2 (s_tok s1))).
    { apply fin_Next_tok; [exact O|]. intros c s1 _ _ _ _ _ _ G.
      pose proof (get_next_alike k' (s_tok s) SS0 (proj1 (held_wf _ _ Hk))) as X.
      destruct c as [x|]; rewrite G in X; destruct (get_next k') as [y ky|ky|] eqn:Gy; try contradiction.
      - destruct X as [_ X]. exists ky. split; [left; eauto|exact X].
      - exists ky. split; [right; exact Gy|exact X]. }
    unfold TermFacts.fin in *. destruct (run Next s); tauto. }
  intros _ s1 O1 P1 M1 R1 [M1' (k2 & SK & SS)].
  assert (Hk2 : held text k2) by (destruct SK as [(x & G)|G]; [eapply held_tok|eapply held_nil]; eauto).
  apply fin_join with (Q0 := fun _ _ => True); [|start; go].
  apply (fin_loop_inv _ _ _ _ _ (fun _ s2 => exists ts k, reads k2 ts k /\ same_spot k (s_tok s2) /\
    held text k /\ Forall (fun u => kw "END" u = false) ts) (fun _ _ => True) _ s1); auto; try lia.
  2: { exists [], k2. repeat split; auto; try apply SS. constructor. }
  intros [] s2 O2 P2 M2 R2 (ts & k & Rd & SS2 & Hkk & FE). unfold asm_step. go1. unfold next. go1.
  apply fin_Next_tok; [exact O2|]. intros c s3 O3 C3 P3 M3 R3 St G.
  destruct c as [u|]; [|now go1]. go1.
  pose proof (get_next_alike k (s_tok s2) SS2 (proj1 (held_wf _ _ Hkk))) as X. rewrite G in X.
  destruct (get_next k) as [y ky|ky|] eqn:Gy; try contradiction. destruct X as [AL SS3].
  destruct (kw "END" u) eqn:KE; [go|]. go1.
  assert (Rd' : reads k2 (ts ++ [y]) ky).
  { clear - Rd Gy. induction Rd; cbn; econstructor; eauto. constructor. }
  assert (FE' : Forall (fun u => kw "END" u = false) (ts ++ [y])).
  { apply Forall_app. split; [exact FE|]. constructor; [|constructor]. rewrite (kw_alike "END" y u AL). exact KE. }
  split.
  - exists (ts ++ [y]), ky. repeat split; auto; try apply SS3. eapply held_tok; eauto.
  - destruct NA as [LX|NA]; [now left|right]. apply (St u eq_refl). intros E. apply NA.
    exists k0, t', k', k2, ts, y, ky. repeat split; auto.
    + rewrite (kw_alike "ASM" t' t A0). exact Kt.
    + destruct AL as (T & _). congruence.
Qed.

Let HE := rg_expr _ _ _ _ R m RG.
Let HT := rg_type _ _ _ _ R m RG.
Let L2 := fin_parse_ident_list_by text path lax D.
Let L3 := fin_parse_const_expr text path lax D R m RG.
Let L4 := fin_parse_expression text path lax D R m RG.
Let L5 := fin_parse_designator text path lax D R m RG.
Let L6 := fin_parse_expr_list text path lax D R m RG.
Let L7 := fin_parse_qual_id text path lax D.
Let L8 := fin_parse_qual_ids text path lax D R m RG.
Let L9 := fin_parse_type text path lax D R m RG.
Let L10 := fin_parse_function_heading text path lax D R m RG.
#[local] Hint Resolve HE HT L2 L3 L4 L5 L6 L7 L8 L9 L10 : term.

(** ** Statements *)
Section Statements.
Hypothesis NA : no_stray_asm text lax.
Let HS := rg_stmt _ _ _ _ R m RG NA.
Let LA s := fin_parse_asm s NA.
#[local] Hint Resolve HS LA : term.
Lemma fin_parse_stmt_list term s : ok s -> lax = true \/ mu s < m ->
  fin (place s) (parse_stmt_list R term) s (fun _ _ => True).
Proof. intros O M. unfold parse_stmt_list, stmt_list_step. go. Qed.
#[local] Hint Resolve fin_parse_stmt_list : term.
Lemma fin_parse_compound_stmt s : ok s -> lax = true \/ mu s <= m ->
  fin (place s) (parse_compound_stmt R) s (fun _ _ => True).
Proof. intros O M. unfold parse_compound_stmt. go. Qed.
Lemma fin_parse_designator_statement s : ok s -> lax = true \/ mu s <= m ->
  fin (place s) (parse_designator_statement R) s (fun _ _ => True).
Proof. intros O M. unfold parse_designator_statement. go. Qed.
Lemma fin_parse_inherited s : ok s -> fin (place s) parse_inherited s (fun _ _ => True).
Proof. intros O. unfold parse_inherited. go. Qed.
Lemma fin_parse_goto s : ok s -> fin (place s) parse_goto s (fun _ _ => True).
Proof. intros O. unfold parse_goto. go. Qed.
Lemma fin_parse_if s : ok s -> lax = true \/ mu s <= m -> fin (place s) (parse_if R) s (fun _ _ => True).
Proof. intros O M. unfold parse_if. go. Qed.
Lemma fin_parse_case_label s : ok s -> lax = true \/ mu s <= m -> fin (place s) (parse_case_label R) s (fun _ _ => True).
Proof. intros O M. unfold parse_case_label. go. Qed.
#[local] Hint Resolve fin_parse_case_label : term.
Lemma fin_parse_case_selector s : ok s -> lax = true \/ mu s <= m -> fin (place s) (parse_case_selector R) s (fun _ _ => True).
Proof. intros O M. unfold parse_case_selector, case_labels_step. go. Qed.
#[local] Hint Resolve fin_parse_case_selector : term.
Lemma fin_parse_case s : ok s -> lax = true \/ mu s <= m -> fin (place s) (parse_case R) s (fun _ _ => True).
Proof. intros O M. unfold parse_case, case_selectors_step. go. Qed.
Lemma fin_parse_repeat s : ok s -> lax = true \/ mu s <= m -> fin (place s) (parse_repeat R) s (fun _ _ => True).
Proof. intros O M. unfold parse_repeat. go. Qed.
Lemma fin_parse_while s : ok s -> lax = true \/ mu s <= m -> fin (place s) (parse_while R) s (fun _ _ => True).
Proof. intros O M. unfold parse_while. go. Qed.
Lemma fin_parse_for s : ok s -> lax = true \/ mu s <= m -> fin (place s) (parse_for R) s (fun _ _ => True).
Proof. intros O M. unfold parse_for. go. Qed.
Lemma fin_parse_with s : ok s -> lax = true \/ mu s <= m -> fin (place s) (parse_with R) s (fun _ _ => True).
Proof. intros O M. unfold parse_with. go. Qed.
Lemma fin_parse_raise s : ok s -> lax = true \/ mu s <= m -> fin (place s) (parse_raise R) s (fun _ _ => True).
Proof. intros O M. unfold parse_raise. go. Qed.
#[local] Hint Resolve fin_parse_compound_stmt fin_parse_designator_statement fin_parse_inherited fin_parse_goto fin_parse_if
  fin_parse_case fin_parse_repeat fin_parse_while fin_parse_for fin_parse_with fin_parse_raise : term.
Lemma fin_parse_handler s : ok s -> lax = true \/ mu s <= m -> fin (place s) (parse_handler R) s (fun _ s' => mu s' < mu s).
Proof.
  intros O M. unfold parse_handler. go1. go1. go1. go1. go1. go1.
  apply fin_join with (Q0 := fun i _ => forall x, i = Some x -> i_loc x <> None).
  { repeat go1; leaf; intros x [=]; subst; discriminate. }
  start. go1. go1.
  apply fin_join with (Q0 := fun _ _ => True); [|start; go].
  go1; [|go]. subst. apply fin_set1; auto; try discriminate. exact (fun _ => I).
Qed.
#[local] Hint Resolve fin_parse_handler : term.
Lemma fin_parse_exception_block s : ok s -> lax = true \/ mu s < m ->
  fin (place s) (parse_exception_block R) s (fun _ _ => True).
Proof. intros O M. unfold parse_exception_block, handlers_step. go. Qed.
#[local] Hint Resolve fin_parse_exception_block : term.
Lemma fin_parse_try s : ok s -> lax = true \/ mu s <= m -> fin (place s) (parse_try R) s (fun _ _ => True).
Proof. intros O M. unfold parse_try. go. Qed.
#[local] Hint Resolve fin_parse_try : term.
Lemma fin_parse_statement_body s : ok s -> lax = true \/ mu s <= m ->
  fin (place s) (parse_statement_body R) s (fun _ _ => True).
Proof. intros O M. unfold parse_statement_body. go. Qed.
#[local] Hint Resolve fin_parse_statement_body : term.
Lemma fin_parse_statement s : ok s -> lax = true \/ mu s <= m ->
  fin (place s) (parse_statement R) s (fun _ _ => True).
Proof. intros O M. unfold parse_statement. go. Qed.
End Statements.

(** ** Sections *)
Lemma fin_section_head req w s : ok s -> fin (place s) (section_head req (kw w)) s
  (fun b s' => s' = s /\ (b = true -> exists t, s_cur s = Some t /\ kw w t = true)).
Proof. intros O. unfold section_head. go; eauto. Qed.
Lemma fin_declare_type i ty s : lax = true -> ok s -> i_loc i <> None ->
  fin (place s) (declare_type i ty) s (fun _ _ => True).
Proof.
  intros LX O Li. unfold declare_type. go1. go1.
  assert (DS : forall n, node_there (s_heap s) (to_lower (i_name i)) n -> declares lax s (mkDecl i n)) by (intros n N; repeat split; auto).
  repeat go1.
  - apply fin_onheap; [assumption|]. cbn beta zeta.
    set (h1 := with_fwds _ _). set (h2 := with_decls _ _).
    assert (G1 : good_step lax (s_heap s) h1) by (apply good_fwds, (ok_sound text path lax D); assumption).
    assert (G2 : good_step lax h1 h2) by (apply good_decls; [apply G1|auto]).
    pose proof (good_trans lax _ _ _ G1 G2) as G3.
    assert (CP : ctx_path h2 (s_ctx s) = Some path).
    { apply (ctx_path_grew lax (s_heap s)); [now apply (ok_sound text path lax D)|apply G3|now apply (ok_path text path lax D)]. }
    assert (DD : declared h2 (to_lower (i_name i)) (Ptr (length (h_decls h1)))).
    { exists (mkDecl i (NType (TClass heritage members))). repeat split; auto.
      unfold deref, h2. cbn. rewrite nth_error_app2 by apply le_n. now rewrite Nat.sub_diag. }
    destruct (ctx_overwrite_good lax h2 (s_ctx s) path (i_name i) _ (proj1 G3) CP DD) as (h3 & E & G4).
    rewrite E. split; [|exact I]. eapply good_trans; eauto.
  - apply fin_set; auto.
Qed.
Lemma fin_parse_type_section req s : no_types text lax -> ok s -> lax = true \/ mu s <= m ->
  fin (place s) (parse_type_section R req) s (fun r s' => r <> None -> lax = true \/ mu s' < mu s).
Proof.
  intros NT O M. unfold parse_type_section. go1.
  eapply fin_conseq; [now apply fin_section_head|lia|start]. subst. go1.
  - subst. destruct (H4 eq_refl) as (t & C & K). destruct NT as [LX|NT].
    2: { exfalso. apply NT. exists t. split; [|exact K]. eapply ok_token; eauto. }
    apply fin_postscope; [assumption|start].
    assert (LD : forall i ty s, ok s -> i_loc i <> None -> fin (place s) (declare_type i ty) s (fun _ _ => True))
      by (intros; now apply fin_declare_type).
    unfold type_section_step, parse_type_decl.
    repeat lazymatch goal with
      | |- TermFacts.fin _ _ _ _ _ RunPost _ _ => apply fin_runpost; [assumption|assumption|start]
      | |- TermFacts.fin _ _ _ _ _ (declare_type _ _) _ _ =>
        eapply fin_conseq; [apply LD; [assumption|discriminate]|arith|start]
      | _ => go1 end; leaf.
  - go. contradiction.
Qed.

Lemma fin_parse_constant_decl s : ok s -> lax = true \/ mu s <= m -> fin (place s) (parse_constant_decl R) s (fun _ _ => True).
Proof. intros O M. unfold parse_constant_decl. go. Qed.
#[local] Hint Resolve fin_parse_constant_decl : term.
Lemma fin_parse_const_section req s : ok s -> lax = true \/ mu s <= m ->
  fin (place s) (parse_const_section R req) s (fun r s' => r <> None -> lax = true \/ mu s' < mu s).
Proof.
  intros O M. unfold parse_const_section, const_section_step. go1.
  eapply fin_conseq; [now apply fin_section_head|lia|start]. subst. go1; [|go; contradiction].
  subst. destruct (H4 eq_refl) as (t & C & K). go.
Qed.
Lemma fin_parse_var_decl s : ok s -> lax = true \/ mu s <= m -> fin (place s) (parse_var_decl R) s (fun _ _ => True).
Proof. intros O M. unfold parse_var_decl. go. Qed.
#[local] Hint Resolve fin_parse_var_decl : term.
Lemma fin_parse_var_section req s : ok s -> lax = true \/ mu s <= m ->
  fin (place s) (parse_var_section R req) s (fun r s' => r <> None -> lax = true \/ mu s' < mu s).
Proof.
  intros O M. unfold parse_var_section, var_section_step. go1.
  eapply fin_conseq; [now apply fin_section_head|lia|start]. subst. go1; [|go; contradiction].
  subst. destruct (H4 eq_refl) as (t & C & K). go.
Qed.
Lemma fin_parse_threadvar_decl s : ok s -> lax = true \/ mu s <= m -> fin (place s) (parse_threadvar_decl R) s (fun _ _ => True).
Proof. intros O M. unfold parse_threadvar_decl. go. Qed.
#[local] Hint Resolve fin_parse_threadvar_decl : term.
Lemma fin_parse_threadvar_section req s : ok s -> lax = true \/ mu s <= m ->
  fin (place s) (parse_threadvar_section R req) s (fun r s' => r <> None -> lax = true \/ mu s' < mu s).
Proof.
  intros O M. unfold parse_threadvar_section, threadvar_section_step. go1.
  eapply fin_conseq; [now apply fin_section_head|lia|start]. subst. go1; [|go; contradiction].
  subst. destruct (H4 eq_refl) as (t & C & K). go.
Qed.

(** ** Functions and blocks *)
Lemma fin_parse_external_options s : ok s -> fin (place s) parse_external_options s (fun _ _ => True).
Proof. intros O. unfold parse_external_options, parse_string_factor, parse_number_factor. cbn [orb]. go. Qed.
#[local] Hint Resolve fin_parse_external_options : term.
Lemma fin_parse_function_directives s : ok s -> lax = true \/ mu s <= m ->
  fin (place s) (parse_function_directives R) s (fun _ _ => True).
Proof. intros O M. unfold parse_function_directives, directives_step. go. Qed.
#[local] Hint Resolve fin_parse_function_directives : term.
Lemma fin_parse_optional_directives s : ok s -> lax = true \/ mu s <= m ->
  fin (place s) (parse_optional_directives R) s (fun _ _ => True).
Proof. intros O M. unfold parse_optional_directives. go. Qed.
#[local] Hint Resolve fin_parse_optional_directives : term.
Lemma fin_parse_exported_heading s : ok s -> lax = true \/ mu s <= m ->
  (forall t, s_cur s = Some t -> eqs_any (value t) ["PROCEDURE"; "FUNCTION"]%string = true) ->
  fin (place s) (parse_exported_heading R) s (fun _ s' => mu s' < mu s).
Proof.
  intros O M HK. unfold parse_exported_heading. go1. go1. go1.
  rewrite (HK t) by congruence. go.
Qed.
Section Blocks.
Hypothesis NA : no_stray_asm text lax.
Hypothesis NT : no_types text lax.
Let HB := rg_block _ _ _ _ R m RG NA NT.
Let LA s := fin_parse_asm s NA.
Let LC := fin_parse_compound_stmt NA.
Let LT req s := fin_parse_type_section req s NT.
#[local] Hint Resolve HB LA LC LT fin_parse_const_section fin_parse_var_section fin_parse_threadvar_section : term.
Lemma fin_parse_procedure_decl_section s : ok s -> lax = true \/ mu s <= m ->
  fin (place s) (parse_procedure_decl_section R) s (fun r s' => r <> None -> lax = true \/ mu s' < mu s).
Proof. intros O M. unfold parse_procedure_decl_section. go. contradiction. Qed.
Lemma fin_parse_label_decl_section s : ok s ->
  fin (place s) parse_label_decl_section s (fun r s' => r <> None -> lax = true \/ mu s' < mu s).
Proof. intros O. unfold parse_label_decl_section. go. contradiction. Qed.
#[local] Hint Resolve fin_parse_procedure_decl_section fin_parse_label_decl_section : term.
Lemma fin_parse_decl_section s : ok s -> lax = true \/ mu s <= m ->
  fin (place s) (parse_decl_section R) s (fun r s' => r <> None -> lax = true \/ mu s' < mu s).
Proof.
  intros O M. unfold parse_decl_section. go; subst; intros;
    repeat match goal with H : Some _ <> None -> _ |- _ => specialize (H ltac:(discriminate)) | H : ?x <> None -> _, N : ?x <> None |- _ => specialize (H N) end;
    arith.
Qed.
#[local] Hint Resolve fin_parse_decl_section : term.
Lemma fin_parse_decl_sections s : ok s -> lax = true \/ mu s <= m ->
  fin (place s) (parse_decl_sections R) s (fun _ _ => True).
Proof.
  intros O M. unfold parse_decl_sections, decl_sections_step. go; subst;
    repeat match goal with H : Some _ <> None -> _ |- _ => specialize (H ltac:(discriminate)) end; arith.
Qed.
Lemma fin_parse_exports_item s : ok s -> lax = true \/ mu s <= m -> fin (place s) (parse_exports_item R) s (fun _ _ => True).
Proof. intros O M. unfold parse_exports_item. go. Qed.
#[local] Hint Resolve fin_parse_exports_item : term.
Lemma fin_parse_exports_stmt s : ok s -> lax = true \/ mu s <= m ->
  fin (place s) (parse_exports_stmt R) s (fun r s' => r <> None -> mu s' < mu s).
Proof. intros O M. unfold parse_exports_stmt, until_list, until, until_step, append_with. go. contradiction. Qed.
#[local] Hint Resolve fin_parse_exports_stmt : term.
Lemma fin_parse_exports_stmts s : ok s -> lax = true \/ mu s <= m ->
  fin (place s) (parse_exports_stmts R) s (fun _ _ => True).
Proof.
  intros O M. unfold parse_exports_stmts, exports_step. go; subst;
    repeat match goal with H : Some _ <> None -> _ |- _ => specialize (H ltac:(discriminate)) end; arith.
Qed.
#[local] Hint Resolve fin_parse_decl_sections fin_parse_exports_stmts : term.
Lemma fin_parse_block s : ok s -> lax = true \/ mu s <= m -> fin (place s) (parse_block R) s (fun _ _ => True).
Proof. intros O M. unfold parse_block. go. Qed.
End Blocks.
End WithUnicode.
