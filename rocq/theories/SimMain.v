(** Every method treats related states alike. *)
From Coq Require Import String List NArith Bool Arith Lia.
From Verif Require Import Runes Token Tokenizer ListUtil Ast Ext Heap Classes Prog Parser Units CaseSpec SimFacts SimHeap.
Import ListNotations.
Local Open Scope list_scope.

Section WithUnicode.
Context {U : Unicode} {UOK : UnicodeOk U}.

Lemma psim_if {A} {SA : Sim A} (b1 b2 : bool) (p1 q1 p2 q2 : prog A) : b1 = b2 ->
  (b1 = true -> psim p1 p2) -> (b1 = false -> psim q1 q2) -> psim (if b1 then p1 else q1) (if b2 then p2 else q2).
Proof. intros <- P Q. destruct b1; auto. Qed.
Lemma norm_new_ident t1 t2 : tsim t1 t2 -> norm (new_ident t1) = norm (new_ident t2).
Proof.
  intro T. unfold norm, norm_ident, new_ident. cbn [i_name i_loc option_map]. f_equal. exact (proj1 (tsim_letters _ _ T)).
Qed.
Lemma eqs_sim t1 t2 s : tsim t1 t2 -> fixed_word (rs s) = true -> eqs (value t1) s = eqs (value t2) s.
Proof. intros. now apply fixed_value. Qed.
Lemma eqs_upper_sim t1 t2 s : tsim t1 t2 -> eqs (to_upper (value t1)) s = eqs (to_upper (value t2)) s.
Proof. intro T. now rewrite (proj2 (tsim_value_letters _ _ T)). Qed.
Lemma eqs_lower_sim t1 t2 s : tsim t1 t2 -> eqs (to_lower (value t1)) s = eqs (to_lower (value t2)) s.
Proof. intro T. now rewrite (proj1 (tsim_value_letters _ _ T)). Qed.
Lemma upper_eq_sim t1 t2 s : tsim t1 t2 -> upper_eq t1 s = upper_eq t2 s.
Proof. apply eqs_upper_sim. Qed.
Lemma eqs_any_sim t1 t2 l : tsim t1 t2 -> forallb (fun s => fixed_word (rs s)) l = true -> eqs_any (value t1) l = eqs_any (value t2) l.
Proof.
  intros T F. unfold eqs_any. induction l as [|s l IH]; [reflexivity|]. cbn [forallb existsb] in *. apply andb_true_iff in F as [F1 F2].
  now rewrite (eqs_sim _ _ _ T F1), IH.
Qed.
Lemma eqs_any_upper_sim t1 t2 l : tsim t1 t2 -> eqs_any (to_upper (value t1)) l = eqs_any (to_upper (value t2)) l.
Proof. intro T. now rewrite (proj2 (tsim_value_letters _ _ T)). Qed.
Lemma manifest_sim t1 t2 : tsim t1 t2 -> is_manifest_constant (value t1) = is_manifest_constant (value t2).
Proof. intro T. unfold is_manifest_constant. now rewrite (proj2 (tsim_value_letters _ _ T)). Qed.
Lemma section_end_sim : resp section_end.
Proof. intros t1 t2 T. unfold section_end. now rewrite (resp_type ReservedWord _ _ T), (resp_type EOF _ _ T). Qed.

Lemma resp_ops : resp rel_op /\ resp unary_op /\ resp add_op /\ resp mul_op.
Proof.
  repeat split; unfold rel_op, unary_op, add_op, mul_op;
    repeat first [apply resp_some_cons | apply resp_some_nil | apply resp_sym | apply resp_kw | apply resp_symtext].
Qed.
Lemma resp_breaks : resp visibility_break /\ resp property_break /\ resp method_break /\ resp field_list_break.
Proof.
  repeat split; unfold field_list_break, method_break, property_break, visibility_break;
    repeat first [apply resp_some_cons | apply resp_some_nil | apply resp_sym | apply resp_kw | apply resp_upper_is].
Qed.
Definition resp_rel_op := proj1 resp_ops.
Definition resp_unary_op := proj1 (proj2 resp_ops).
Definition resp_add_op := proj1 (proj2 (proj2 resp_ops)).
Definition resp_mul_op := proj2 (proj2 (proj2 resp_ops)).
Definition resp_visibility_break := proj1 resp_breaks.
Definition resp_property_break := proj1 (proj2 resp_breaks).
Definition resp_method_break := proj1 (proj2 (proj2 resp_breaks)).
Definition resp_field_list_break := proj2 (proj2 (proj2 resp_breaks)).

(** ** The basic methods *)
Lemma psim_cur_tok : psim cur cur.
Proof.
  unfold cur. eapply psim_bind; [apply psim_cur|]. intros [a|] [b|] E; try contradiction; [now apply psim_ret|apply psim_crash].
Qed.
Lemma psim_next_tok : psim next next.
Proof.
  unfold next. eapply psim_bind; [apply psim_next|]. intros [a|] [b|] E; try contradiction; [now apply psim_ret|apply psim_crash].
Qed.
Lemma psim_is p : resp p -> psim (is p) (is p).
Proof. intro P. unfold is. eapply psim_bind; [apply psim_cur_tok|]. intros a b E. apply psim_ret. apply (P _ _ E). Qed.
Lemma psim_validate a b p : osim_tok a b -> resp p -> psim (validate a p) (validate b p).
Proof.
  intros E P. destruct a, b; try contradiction; cbn [validate]; [|now apply psim_fail].
  apply psim_if; [apply (P _ _ E)|intros _; now apply psim_ret|intros _; apply psim_failat].
Qed.
Lemma psim_expect p : resp p -> psim (expect p) (expect p).
Proof. intro P. unfold expect. eapply psim_bind; [apply psim_cur|]. intros. now apply psim_validate. Qed.
Lemma psim_expect_next p : resp p -> psim (expect_next p) (expect_next p).
Proof. intro P. unfold expect_next. eapply psim_bind; [apply psim_next|]. intros. now apply psim_validate. Qed.
Lemma psim_expect_or_fail p : resp p -> psim (expect_or_fail p) (expect_or_fail p).
Proof.
  intro P. unfold expect_or_fail. eapply psim_bind; [apply psim_cur_tok|]. intros a b E.
  apply psim_if; [apply (P _ _ E)|intros _; now apply psim_ret|intros _; apply psim_failat].
Qed.

Lemma psim_until {S} {NS : Norm S} f1 f2 t sep (fn1 fn2 : S -> prog (option S)) v1 v2 :
  f1 <= f2 -> resp t -> resp_opt sep -> (forall v1 v2, norm v1 = norm v2 -> psim (fn1 v1) (fn2 v2)) -> norm v1 = norm v2 ->
  psim (until f1 t sep fn1 v1) (until f2 t sep fn2 v2).
Proof.
  intros L T P F V. unfold until. apply psim_loop_norm; auto. intros x1 x2 X. unfold until_step.
  eapply psim_bind; [now apply F|]. intros [y1|] [y2|] Y; try discriminate Y.
  - eapply psim_bind; [apply psim_cur|]. intros [c|] [d|] C; try contradiction; [|now apply psim_fail].
    apply psim_if; [apply (T _ _ C)|intros _; apply psim_ret|intros _].
    + apply (f_equal inr). now apply norm_some.
    + destruct sep as [sep|].
      * eapply psim_bind; [now apply psim_validate|]. intros _ _ _. eapply psim_bind; [apply psim_next|]. intros _ _ _.
        apply psim_ret. apply (f_equal inl). now apply norm_some.
      * apply psim_ret. apply (f_equal inl). now apply norm_some.
  - apply psim_ret. now apply (f_equal inr).
Qed.
Lemma psim_until_list {A} {NA : Norm A} f1 f2 t sep (p1 p2 : prog A) : f1 <= f2 -> resp t -> resp_opt sep -> psim p1 p2 ->
  psim (until_list f1 t sep p1) (until_list f2 t sep p2).
Proof.
  intros L T P F. unfold until_list. apply psim_until; auto. intros v1 v2 V. unfold append_with.
  eapply psim_bind; [exact F|]. intros a b E. apply psim_ret. apply (f_equal Some).
  change (norm (v1 ++ [a]) = norm (v2 ++ [b])). apply norm_app; auto. change ([norm a] = [norm b]). f_equal. exact E.
Qed.

Lemma psim_get n1 n2 : same_letters n1 n2 -> psim (get n1) (get n2).
Proof.
  intro L. apply psim_onheap. intros c h1 h2 E. rewrite (ctx_get_sim _ _ c _ _ E L). destruct (ctx_get h2 c n2); try exact I; (split; [reflexivity|exact E]).
Qed.
Lemma psim_node_of d : psim (node_of d) (node_of d).
Proof.
  apply psim_onheap. intros c h1 h2 E. pose proof (deref_sim _ _ d E) as D. destruct (deref h1 d), (deref h2 d); try discriminate D; cbn; auto.
  split; auto. apply norm_some in D. exact (f_equal d_node D).
Qed.
Lemma psim_get_node n1 n2 : same_letters n1 n2 -> psim (get_node n1) (get_node n2).
Proof.
  intro L. unfold get_node. eapply psim_bind; [now apply psim_get|]. intros [d1|] [d2|] D; try discriminate D.
  - injection D as D. change (d1 = d2) in D. subst d2. eapply psim_bind; [apply psim_node_of|]. intros a b E. apply psim_ret.
    apply (f_equal (fun x => Some (d1, x)) E).
  - now apply psim_ret.
Qed.
Lemma psim_set ds1 ds2 : norm ds1 = norm ds2 -> psim (set ds1) (set ds2).
Proof.
  intro D. apply psim_onheap. intros c h1 h2 E. pose proof (ctx_set_sim _ _ c _ _ E D) as M.
  destruct (ctx_set h1 c ds1), (ctx_set h2 c ds2); cbn in M |- *; try contradiction; auto.
  - now split.
  - destruct M as [M1 M2]. split; auto. apply (f_equal EDup M2).
Qed.
Lemma psim_new_type_id u1 u2 i1 i2 r1 r2 : norm u1 = norm u2 -> norm i1 = norm i2 -> r1 = r2 ->
  psim (new_type_id u1 i1 r1) (new_type_id u2 i2 r2).
Proof.
  intros A B <-. apply psim_onheap. intros c h1 h2 E. rewrite (nh_refs _ _ E). split; [|now apply with_refs_sim].
  unfold sim, sim_norm, norm, norm_typeid. cbn [ti_unit ti_ident ti_ref]. now rewrite A, B.
Qed.
Lemma psim_uses_item_unit a : psim (uses_item_unit a) (uses_item_unit a).
Proof.
  apply psim_onheap. intros c h1 h2 E. pose proof (norm_nth _ _ a (nh_uses _ _ E)) as D.
  destruct (nth_error (h_uses h1) a), (nth_error (h_uses h2) a); try discriminate D; cbn; auto. split; auto.
  apply norm_some in D. exact (f_equal (fun x => norm (u_unit x)) D).
Qed.
Lemma psim_unit_get a n1 n2 : same_letters n1 n2 -> psim (unit_get a n1) (unit_get a n2).
Proof.
  intro L. apply psim_onheap. intros c h1 h2 E. pose proof (norm_nth _ _ a (nh_units _ _ E)) as D.
  destruct (nth_error (h_units h1) a), (nth_error (h_units h2) a); try discriminate D; cbn; auto.
  apply norm_some in D. rewrite (f_equal un_map D : un_map u = un_map u0). rewrite (dget_sim _ _ _ _ _ E L).
  destruct (dget h2 _ n2); try exact I; (split; [reflexivity|exact E]).
Qed.
Lemma psim_program_get a n1 n2 : same_letters n1 n2 -> psim (program_get a n1) (program_get a n2).
Proof.
  intro L. apply psim_onheap. intros c h1 h2 E. pose proof (norm_nth _ _ a (nh_progs _ _ E)) as D.
  destruct (nth_error (h_progs h1) a), (nth_error (h_progs h2) a); try discriminate D; cbn; auto.
  apply norm_some in D. rewrite (f_equal pr_map D : pr_map p = pr_map p0). rewrite (dget_sim _ _ _ _ _ E L).
  destruct (dget h2 _ n2); try exact I; (split; [reflexivity|exact E]).
Qed.

Lemma psim_addpost_sim r1 r2 n1 n2 : norm r1 = norm r2 -> same_letters n1 n2 ->
  psim (AddPost (ti_ref r1) n1) (AddPost (ti_ref r2) n2).
Proof. intros E L. rewrite (f_equal ti_ref E : ti_ref r1 = ti_ref r2). now apply psim_addpost. Qed.

(** Kinds of data [norm] leaves alone *)
Class Plain A {NA : Norm A} := plain : forall x : A, norm x = x.
#[export] Instance plain_bool : Plain bool := fun x => eq_refl.
#[export] Instance plain_nat : Plain nat := fun x => eq_refl.
#[export] Instance plain_dref : Plain dref := fun x => eq_refl.
#[export] Instance plain_dmap : Plain dmap := fun x => eq_refl.
#[export] Instance plain_string : Plain gostring := fun x => eq_refl.
#[export] Instance plain_visibility : Plain visibility := fun x => eq_refl.
#[export] Instance plain_extopts : Plain extopts := fun x => eq_refl.
#[export] Instance plain_option {A} {NA : Norm A} {PA : Plain A} : Plain (option A).
Proof. intros [x|]; [|reflexivity]. exact (f_equal Some (plain x)). Qed.
#[export] Instance plain_list {A} {NA : Norm A} {PA : Plain A} : Plain (list A).
Proof. intro l. induction l as [|x l IH]; [reflexivity|]. change (norm x :: norm l = x :: l). now rewrite plain, IH. Qed.
Lemma plain_eq {A} {NA : Norm A} {PA : Plain A} (a b : A) : norm a = norm b -> a = b.
Proof. now rewrite !plain. Qed.

(** The same, built up *)
Lemma some_intro {A} {NA : Norm A} (a b : A) : norm a = norm b -> norm (Some a) = norm (Some b).
Proof. intro E. exact (f_equal Some E). Qed.
Lemma inl_intro {A B} {NA : Norm A} {NB : Norm B} (a b : A) : norm a = norm b -> norm (inl a : A + B) = norm (inl b : A + B).
Proof. intro E. exact (f_equal inl E). Qed.
Lemma inr_intro {A B} {NA : Norm A} {NB : Norm B} (a b : B) : norm a = norm b -> norm (inr a : A + B) = norm (inr b : A + B).
Proof. intro E. exact (f_equal inr E). Qed.
Lemma pair_intro {A B} {NA : Norm A} {NB : Norm B} (a1 a2 : A) (b1 b2 : B) : norm a1 = norm a2 -> norm b1 = norm b2 ->
  norm (a1, b1) = norm (a2, b2).
Proof. intros E F. exact (f_equal2 pair E F). Qed.
Lemma cons_intro {A} {NA : Norm A} (a b : A) l m : norm a = norm b -> norm l = norm m -> norm (a :: l) = norm (b :: m).
Proof. intros E F. exact (f_equal2 cons E F). Qed.

Lemma not_ident ty t : p_type ty t = true -> ty <> Identifier -> t_type t <> Identifier.
Proof. intros P N E. unfold p_type in P. rewrite E in P. destruct ty; try discriminate P. congruence. Qed.
End WithUnicode.

#[export] Hint Resolve resp_type resp_symbol resp_sym resp_keyword resp_kw resp_symtext resp_upper resp_upper_is
  resp_dirset resp_directive resp_portability resp_some_nil resp_some_cons resp_not section_end_sim
  resp_rel_op resp_unary_op resp_add_op resp_mul_op
  resp_visibility_break resp_property_break resp_method_break resp_field_list_break : resp.
#[export] Hint Extern 1 (resp (p_value _)) => apply resp_value; vm_compute; reflexivity : resp.
#[export] Hint Extern 2 (resp_opt _) => cbn [resp_opt] : resp.
#[export] Hint Extern 2 True => exact I : resp.

(** Simplify what is known *)
Ltac inv_norm :=
  repeat match goal with
  | H : sim _ _ |- _ => progress (unfold sim, sim_norm, sim_token, sim_otoken, sim_fun in H)
  | H : @norm ?T _ ?a = norm ?b |- _ =>
      first [ is_var a; is_var b; apply (@plain_eq T _ _) in H; subst b
            | is_var b; apply (@plain_eq T _ _) in H; symmetry in H; subst b
            | is_var a; apply (@plain_eq T _ _) in H; subst a ]
  | H : norm (Some _) = norm (Some _) |- _ => apply norm_some in H
  | H : norm (NUses _) = norm (NUses _) |- _ => injection H as H
  | H : norm (NUnit _) = norm (NUnit _) |- _ => injection H as H
  | H : norm (NProgram _) = norm (NProgram _) |- _ => injection H as H
  | H : norm (TFwdClass _) = norm (TFwdClass _) |- _ => injection H as H
  | H : norm (NType ?x) = norm (NType ?y) |- _ => assert (norm x = norm y) by (change (NType (norm x) = NType (norm y)) in H; congruence); clear H
  | H : @eq nat ?a ?b |- _ => is_var a; is_var b; subst b
  | H : norm (_, _) = norm (_, _) |- _ => apply pair_inv in H as [? ?]
  | H : norm (Some _) = norm None |- _ => discriminate H
  | H : norm None = norm (Some _) |- _ => discriminate H
  | H : norm (@None _) = norm None |- _ => clear H
  | H : osim_tok (Some ?a) (Some ?b) |- _ => change (tsim a b) in H
  | H : osim_tok (Some _) None |- _ => contradiction
  | H : osim_tok None (Some _) |- _ => contradiction
  end.

(** Equal conditions *)
Ltac cond :=
  first [ reflexivity | assumption
        | match goal with T : tsim ?a ?b |- ?p ?a = ?p ?b => apply (fun X : resp p => X a b T); solve [auto 20 with resp] end
        | match goal with T : tsim ?a ?b |- eqs (value ?a) _ = eqs (value ?b) _ => apply (eqs_sim _ _ _ T); vm_compute; reflexivity end
        | match goal with T : tsim ?a ?b |- eqs (to_upper (value ?a)) _ = _ => apply (eqs_upper_sim _ _ _ T) end
        | match goal with T : tsim ?a ?b |- eqs (to_lower (value ?a)) _ = _ => apply (eqs_lower_sim _ _ _ T) end
        | match goal with T : tsim ?a ?b |- upper_eq ?a _ = _ => apply (upper_eq_sim _ _ _ T) end
        | match goal with T : tsim ?a ?b |- eqs_any (value ?a) _ = _ => apply (eqs_any_sim _ _ _ T); vm_compute; reflexivity end
        | match goal with T : tsim ?a ?b |- eqs_any (to_upper (value ?a)) _ = _ => apply (eqs_any_upper_sim _ _ _ T) end
        | match goal with T : tsim ?a ?b |- is_manifest_constant (value ?a) = _ => apply (manifest_sim _ _ T) end
        | match goal with |- negb _ = negb _ => f_equal; cond end
        | match goal with |- (_ || _) = (_ || _) => f_equal; cond end
        | match goal with |- (_ && _) = (_ && _) => f_equal; cond end ].

(** The type of a token is not that of an identifier *)
Ltac typed :=
  first [ assumption
        | congruence
        | match goal with H : p_type ?ty ?t = true |- t_type ?t <> Identifier => apply (not_ident ty t H); discriminate end
        | match goal with H : ?p ?t = true |- t_type ?t <> Identifier =>
            let E := fresh in intro E; revert H; unfold rel_op, add_op, mul_op, unary_op, sym, kw, p_some, p_symbol, p_has_text, p_keyword, p_type;
            rewrite E; cbn [ttype_eqb negb andb]; discriminate end ].

(** Equal trees *)
Ltac proj := cbn [i_name i_loc ir_ident ir_ref q_ns q_ident ti_unit ti_ident ti_ref d_ident d_node ex_ident ex_name ex_index
  td_ident td_type td_port cd_ident cd_type cd_expr vd_idents vd_type vd_absolute vd_expr tv_idents tv_type u_ident u_path u_unit
  is_uses is_decls im_uses im_decls im_exports in_init in_final pb_uses pb_block un_path un_ident un_port un_intf un_impl un_init un_map
  pr_path pr_ident pr_block pr_map option_map map].
Ltac unnorm := lazy beta iota delta [norm norm_unit norm_bool norm_nat norm_string norm_dref norm_dmap norm_visibility norm_lookup norm_list norm_option n_pair norm_pair n_sum norm_sum norm_ident norm_identref norm_qualid norm_typeid n_expr n_sexpr n_term n_factor n_desig n_ditem norm_expr norm_sexpr norm_term norm_factor norm_desig norm_ditem n_cstored n_cdefault n_typ n_fieldlist n_fielddecl n_variantsection n_recvariant n_formalparm n_heading n_csection n_cmethod n_cheading n_cprop norm_typ norm_fieldlist norm_fielddecl norm_variantsection norm_recvariant norm_formalparm norm_heading norm_csection norm_cmethod norm_cheading norm_cprop norm_cstored norm_cdefault norm_dnode norm_decl n_stmt n_sbody norm_stmt norm_sbody norm_exportsitem norm_extopts norm_typedecl norm_constdecl norm_vardecl norm_threadvardecl n_declsection n_block norm_declsection norm_block norm_intfdecl norm_usesitem norm_intfsection norm_implsection norm_initsection norm_programblock norm_unitobj norm_progobj norm_perr].
Ltac leaf :=
  first [ assumption | reflexivity
        | match goal with |- sim _ _ => unfold sim, sim_norm, sim_fun; leaf end
        | match goal with |- forall _, _ => intro; leaf end
        | match goal with T : tsim ?a ?b |- norm (new_ident ?a) = _ => exact (norm_new_ident _ _ T) end
        | match goal with T : tsim ?a ?b |- norm_ident (new_ident ?a) = _ => exact (norm_new_ident _ _ T) end
        | match goal with T : tsim ?a ?b |- to_lower (raw ?a) = _ => apply (proj1 (tsim_letters _ _ T)) end
        | match goal with F : forall b, norm (?f b) = norm (?g b) |- norm (?f _) = _ => apply F end
        | match goal with T : tsim ?a ?b |- embedded_type_decl _ (raw ?a) = _ => apply embedded_type_letters; exact (proj2 (tsim_letters _ _ T)) end
        | match goal with |- norm (map (fun i => mkDecl i _) _) = _ => apply decls_of_sim; leaf end
        | match goal with |- norm (_ ++ _) = norm (_ ++ _) => apply norm_app; leaf end
        | match goal with |- norm (Some _) = norm (Some _) => apply some_intro; leaf end
        | match goal with |- norm (inl _) = norm (inl _) => apply inl_intro; leaf end
        | match goal with |- norm (inr _) = norm (inr _) => apply inr_intro; leaf end
        | match goal with |- norm (_, _) = norm (_, _) => apply pair_intro; leaf end
        | match goal with |- norm (_ :: _) = norm (_ :: _) => apply cons_intro; leaf end
        | match goal with T : tsim ?a ?b |- value ?a = value ?b => apply (tsim_value _ _ T); typed end
        | match goal with T : tsim ?a ?b |- norm (value ?a) = norm (value ?b) => apply (tsim_value _ _ T); typed end
        | match goal with T : tsim ?a ?b |- norm_string (value ?a) = _ => apply (tsim_value _ _ T); typed end
        | match goal with T : tsim ?a ?b |- to_upper (value ?a) = _ => apply (proj2 (tsim_value_letters _ _ T)) end
        | match goal with T : tsim ?a ?b |- norm (to_upper (value ?a)) = _ => apply (proj2 (tsim_value_letters _ _ T)) end
        | match goal with T : tsim ?a ?b |- to_lower (value ?a) = _ => apply (proj1 (tsim_value_letters _ _ T)) end
        | match goal with T : tsim ?a ?b |- _ => exact (norm_new_ident _ _ T) end
        | match goal with |- map _ (_ ++ _) = map _ (_ ++ _) => rewrite !map_app; f_equal; leaf end
        | match goal with |- _ = _ => unnorm; proj; progress f_equal; leaf end
        ].
Ltac letters :=
  first [ assumption | apply same_letters_refl
        | match goal with T : tsim ?a ?b |- same_letters (value ?a) _ => exact (tsim_value_letters _ _ T) end
        | match goal with T : tsim ?a ?b |- same_letters (to_lower (value ?a)) _ => rewrite (proj1 (tsim_value_letters _ _ T)); apply same_letters_refl end
        | match goal with T : tsim ?a ?b |- same_letters (i_name (new_ident ?a)) _ => exact (tsim_letters _ _ T) end
        | match goal with T : tsim ?a ?b |- same_letters (raw ?a) _ => exact (tsim_letters _ _ T) end ].

Create HintDb psim.
#[export] Hint Resolve psim_next psim_cur psim_cur_tok psim_next_tok psim_failat psim_crash psim_runpost psim_nofuel
  psim_node_of psim_uses_item_unit : psim.

Ltac step :=
  lazymatch goal with
  | |- psim (Bind _ _) (Bind _ _) => eapply psim_bind; [| intros; inv_norm]
  | |- psim (Ret _) (Ret _) => apply psim_ret; leaf
  | |- psim (Attempt _) (Attempt _) => apply psim_attempt
  | |- psim (Scoped _) (Scoped _) => apply psim_scoped
  | |- psim (Traced _) (Traced _) => apply psim_traced
  | |- psim (PostScope _) (PostScope _) => apply psim_postscope
  | |- psim (AddPost _ _) (AddPost _ _) => apply psim_addpost_sim; [leaf | letters]
  | |- psim (Fail _) (Fail _) => apply psim_fail; leaf
  | |- psim (FailAt _) (FailAt _) => apply psim_failat
  | |- psim (is _) (is _) => apply psim_is; solve [auto 20 with resp]
  | |- psim (expect _) (expect _) => apply psim_expect; solve [auto 20 with resp]
  | |- psim (expect_next _) (expect_next _) => apply psim_expect_next; solve [auto 20 with resp]
  | |- psim (expect_or_fail _) (expect_or_fail _) => apply psim_expect_or_fail; solve [auto 20 with resp]
  | |- psim (get _) (get _) => apply psim_get; letters
  | |- psim (get_node _) (get_node _) => apply psim_get_node; letters
  | |- psim (set _) (set _) => apply psim_set; leaf
  | |- psim (unit_get _ _) (unit_get _ _) => apply psim_unit_get; letters
  | |- psim (program_get _ _) (program_get _ _) => apply psim_program_get; letters
  | |- psim (new_type_id _ _ _) (new_type_id _ _ _) => apply psim_new_type_id; leaf
  | |- psim (loop _ _ _) (loop _ _ _) => apply psim_loop_norm; [auto 20 with psim resp | intros; inv_norm | leaf]
  | |- psim (until _ _ _ _ _) (until _ _ _ _ _) =>
      apply psim_until; [auto 20 with psim resp | solve [auto 20 with resp] | solve [auto 20 with resp] | intros; inv_norm | leaf]
  | |- psim (until_list _ _ _ _) (until_list _ _ _ _) =>
      apply psim_until_list; [auto 20 with psim resp | solve [auto 20 with resp] | solve [auto 20 with resp] | ]
  | |- psim (if ?b then _ else _) (if ?b then _ else _) => destruct b eqn:?
  | |- psim (if _ then _ else _) (if _ then _ else _) => apply psim_if; [cond | intro | intro]
  | |- psim (match ?x with _ => _ end) (match ?x with _ => _ end) => destruct x eqn:?
  | T : tsim ?a ?b |- psim (match embedded_type_decl ?k (value ?a) with _ => _ end) (match embedded_type_decl ?k (value ?b) with _ => _ end) =>
      rewrite (embedded_type_letters k _ _ (proj2 (tsim_value_letters _ _ T))); destruct (embedded_type_decl k (value b)) eqn:?
  | T : tsim ?a ?b |- psim (match t_type ?a with _ => _ end) (match t_type ?b with _ => _ end) =>
      rewrite <- (tsim_type _ _ T); destruct (t_type a) eqn:?
  | |- psim (match ?x with _ => _ end) (match ?y with _ => _ end) =>
      first [ is_var x; is_var y; destruct x, y; inv_norm; try match goal with H : norm _ = norm _ |- _ => discriminate H end ]
  end.
Ltac go := repeat first [ progress inv_norm | solve [auto 20 with psim resp] | step ].
