(** Units and programs treat related states and texts alike. *)
From Coq Require Import String List NArith Bool Arith Lia.
From Verif Require Import Runes Token Tokenizer ListUtil Ast Ext Heap Classes Prog Parser Units CaseSpec SimFacts SimHeap SimMain SimParse.
Import ListNotations.
Local Open Scope list_scope.

Section WithUnicode.
Context {U : Unicode} {UOK : UnicodeOk U}.

(** ** Heaps *)
Lemma or_nil_sim {A} {NA : Norm A} (l1 l2 : option (list A)) : norm l1 = norm l2 -> norm (or_nil l1) = norm (or_nil l2).
Proof. destruct l1, l2; intro H; try discriminate H; [now apply norm_some in H|reflexivity]. Qed.
Definition ufun_sim (f1 f2 : unitobj -> unitobj) : Prop := forall o1 o2, norm o1 = norm o2 -> norm (f1 o1) = norm (f2 o2).
Lemma put_unit_sim (h1 h2 : heap) u f1 f2 : norm h1 = norm h2 -> ufun_sim f1 f2 -> norm (put_unit h1 u f1) = norm (put_unit h2 u f2).
Proof.
  intros E F. unfold put_unit. pose proof (norm_nth _ _ u (nh_units _ _ E)) as D.
  destruct (nth_error (h_units h1) u), (nth_error (h_units h2) u); try discriminate D; auto.
  apply norm_some in D. apply with_units_sim; auto. apply norm_set_nth; auto. now apply nh_units.
Qed.
Lemma unitobj_inv o1 o2 : norm o1 = norm o2 -> un_path o1 = un_path o2 /\ norm (un_ident o1) = norm (un_ident o2) /\
  option_map to_lower (un_port o1) = option_map to_lower (un_port o2) /\ norm (un_intf o1) = norm (un_intf o2) /\
  norm (un_impl o1) = norm (un_impl o2) /\ norm (un_init o1) = norm (un_init o2) /\ un_map o1 = un_map o2.
Proof.
  intro E. exact (conj (f_equal un_path E) (conj (f_equal un_ident E) (conj (f_equal un_port E) (conj (f_equal un_intf E)
    (conj (f_equal un_impl E) (conj (f_equal un_init E) (f_equal un_map E))))))).
Qed.
Lemma unitobj_intro p1 p2 i1 i2 o1 o2 a1 a2 b1 b2 c1 c2 m1 m2 : p1 = p2 -> norm i1 = norm i2 -> option_map to_lower o1 = option_map to_lower o2 ->
  norm a1 = norm a2 -> norm b1 = norm b2 -> norm c1 = norm c2 -> m1 = m2 ->
  norm (mkUnit p1 i1 o1 a1 b1 c1 m1) = norm (mkUnit p2 i2 o2 a2 b2 c2 m2).
Proof.
  intros -> I O A B C ->. unfold norm, norm_unitobj. cbn [un_path un_ident un_port un_intf un_impl un_init un_map].
  now rewrite I, O, A, B, C.
Qed.
Lemma with_port_sim v1 v2 : option_map to_lower v1 = option_map to_lower v2 -> ufun_sim (with_port v1) (with_port v2).
Proof. intros V o1 o2 E. apply unitobj_inv in E as (? & ? & ? & ? & ? & ? & ?). now apply unitobj_intro. Qed.
Lemma with_intf_sim v1 v2 : norm v1 = norm v2 -> ufun_sim (with_intf v1) (with_intf v2).
Proof. intros V o1 o2 E. apply unitobj_inv in E as (? & ? & ? & ? & ? & ? & ?). now apply unitobj_intro. Qed.
Lemma with_impl_sim v1 v2 : norm v1 = norm v2 -> ufun_sim (with_impl v1) (with_impl v2).
Proof. intros V o1 o2 E. apply unitobj_inv in E as (? & ? & ? & ? & ? & ? & ?). now apply unitobj_intro. Qed.
Lemma with_init_sim v1 v2 : norm v1 = norm v2 -> ufun_sim (with_init v1) (with_init v2).
Proof. intros V o1 o2 E. apply unitobj_inv in E as (? & ? & ? & ? & ? & ? & ?). now apply unitobj_intro. Qed.
Lemma with_unit_map_sim v : ufun_sim (with_unit_map v) (with_unit_map v).
Proof. intros o1 o2 E. apply unitobj_inv in E as (? & ? & ? & ? & ? & ? & ?). now apply unitobj_intro. Qed.

Lemma new_map_sim (h1 h2 : heap) : norm h1 = norm h2 -> norm (fst (new_map h1)) = norm (fst (new_map h2)) /\ snd (new_map h1) = snd (new_map h2).
Proof. intro E. unfold new_map. cbn [fst snd]. rewrite (nh_maps _ _ E). split; auto. now apply with_maps_sim. Qed.
Lemma new_chained_sim (h1 h2 : heap) m : norm h1 = norm h2 ->
  norm (fst (new_chained h1 m)) = norm (fst (new_chained h2 m)) /\ snd (new_chained h1 m) = snd (new_chained h2 m).
Proof. intro E. unfold new_chained, new_map. cbn [fst snd]. rewrite (nh_maps _ _ E). split; auto. now apply with_maps_sim. Qed.
Lemma uses_name_sim (h1 h2 : heap) a : norm h1 = norm h2 -> to_lower (uses_name h1 a) = to_lower (uses_name h2 a).
Proof.
  intro E. unfold uses_name. pose proof (norm_nth _ _ a (nh_uses _ _ E)) as D.
  destruct (nth_error (h_uses h1) a), (nth_error (h_uses h2) a); try discriminate D; auto.
  apply norm_some in D. apply norm_name. exact (f_equal u_ident D).
Qed.
Lemma unit_name_sim (h1 h2 : heap) a : norm h1 = norm h2 -> to_lower (unit_name h1 a) = to_lower (unit_name h2 a).
Proof.
  intro E. unfold unit_name. pose proof (norm_nth _ _ a (nh_units _ _ E)) as D.
  destruct (nth_error (h_units h1) a), (nth_error (h_units h2) a); try discriminate D; auto.
  apply norm_some in D. apply norm_name. exact (f_equal un_ident D).
Qed.
Lemma uses_units_sim (h1 h2 : heap) l : norm h1 = norm h2 -> uses_units h1 l = uses_units h2 l.
Proof.
  intro E. unfold uses_units. apply map_ext. intro a. pose proof (norm_nth _ _ a (nh_uses _ _ E)) as D.
  destruct (nth_error (h_uses h1) a), (nth_error (h_uses h2) a); try discriminate D; auto.
  apply norm_some in D. exact (f_equal u_unit D).
Qed.
Lemma units_maps_sim (h1 h2 : heap) l : norm h1 = norm h2 -> units_maps h1 l = units_maps h2 l.
Proof.
  intro E. unfold units_maps. apply map_ext. intro a. pose proof (norm_nth _ _ a (nh_units _ _ E)) as D.
  destruct (nth_error (h_units h1) a), (nth_error (h_units h2) a); try discriminate D; auto.
  apply norm_some in D. exact (f_equal un_map D).
Qed.
Lemma usesitem_intro i1 i2 p1 p2 u : norm i1 = norm i2 -> p1 = p2 -> norm (mkUses i1 p1 u) = norm (mkUses i2 p2 u).
Proof. intros I ->. exact (f_equal (fun i => mkUses i p2 u) I). Qed.
Lemma decl_intro i1 i2 n1 n2 : norm i1 = norm i2 -> norm n1 = norm n2 -> norm (mkDecl i1 n1) = norm (mkDecl i2 n2).
Proof. intros I J. exact (f_equal2 mkDecl I J). Qed.
Lemma intfsection_intro u1 u2 d1 d2 : u1 = u2 -> norm d1 = norm d2 -> norm (mkIntf u1 d1) = norm (mkIntf u2 d2).
Proof. intros -> D. exact (f_equal (mkIntf u2) D). Qed.
Lemma implsection_intro u1 u2 d1 d2 e1 e2 : u1 = u2 -> norm d1 = norm d2 -> norm e1 = norm e2 -> norm (mkImpl u1 d1 e1) = norm (mkImpl u2 d2 e2).
Proof. intros -> D E. exact (f_equal2 (mkImpl u2) D E). Qed.
Lemma initsection_intro a1 a2 b1 b2 : norm a1 = norm a2 -> norm b1 = norm b2 -> norm (mkInit a1 b1) = norm (mkInit a2 b2).
Proof. intros A B. exact (f_equal2 mkInit A B). Qed.
Lemma uses_put_unit_sim (h1 h2 : heap) a u : norm h1 = norm h2 -> norm (uses_put_unit h1 a u) = norm (uses_put_unit h2 a u).
Proof.
  intro E. unfold uses_put_unit. pose proof (norm_nth _ _ a (nh_uses _ _ E)) as D.
  destruct (nth_error (h_uses h1) a), (nth_error (h_uses h2) a); try discriminate D; auto.
  apply norm_some in D. apply with_uses_sim; auto. apply norm_set_nth; [|now apply nh_uses].
  apply usesitem_intro; [exact (f_equal u_ident D)|exact (f_equal u_path D)].
Qed.
Lemma find_nat_sim (f1 f2 : nat -> gostring) l n1 n2 : (forall a, to_lower (f1 a) = to_lower (f2 a)) -> to_lower n1 = to_lower n2 ->
  find_name f1 l n1 = find_name f2 l n2.
Proof. intros F N. induction l as [|a l IH]; [reflexivity|]. cbn [find_name]. rewrite F, N, IH. reflexivity. Qed.
Lemma assign_units_loop_sim us l : forall h1 h2 : heap, norm h1 = norm h2 -> norm (assign_units_loop h1 us l) = norm (assign_units_loop h2 us l).
Proof.
  induction l as [|a l IH]; intros h1 h2 E; cbn [assign_units_loop]; auto. apply IH.
  rewrite (find_nat_sim (unit_name h1) (unit_name h2) us (uses_name h1 a) (uses_name h2 a)); auto using unit_name_sim, uses_name_sim.
  destruct (find_name _ _ _); auto. now apply uses_put_unit_sim.
Qed.
Lemma parent_units_sim (h1 h2 : heap) c : norm h1 = norm h2 -> parent_units h1 c = parent_units h2 c.
Proof. intro E. unfold parent_units. now rewrite (nh_ctxs _ _ E). Qed.
Lemma assign_units_sim (h1 h2 : heap) c l : norm h1 = norm h2 -> norm (assign_units h1 c l) = norm (assign_units h2 c l).
Proof.
  intro E. unfold assign_units. rewrite (parent_units_sim _ _ c E). destruct (parent_units h2 c); [|reflexivity].
  cbn [option_map]. apply some_intro. now apply assign_units_loop_sim.
Qed.
Lemma import_unit_decls_sim (h1 h2 : heap) c l : norm h1 = norm h2 -> norm (import_unit_decls h1 c l) = norm (import_unit_decls h2 c l).
Proof.
  intro E. unfold import_unit_decls. pose proof (assign_units_sim _ _ c l E) as A.
  destruct (assign_units h1 c l) as [g1|], (assign_units h2 c l) as [g2|]; try discriminate A; [|reflexivity]. apply norm_some in A.
  unfold new_map. rewrite (nh_maps _ _ A), (uses_units_sim _ _ l A).
  set (k1 := with_maps _ g1). set (k2 := with_maps _ g2). assert (K : norm k1 = norm k2) by now apply with_maps_sim.
  rewrite (nh_ctxs _ _ K). destruct (nth_error (h_ctxs k2) c); [|reflexivity]. apply some_intro.
  rewrite (units_maps_sim _ _ _ K). now apply ctx_put_map_sim.
Qed.
Lemma add_unit_sim (h1 h2 : heap) c u : norm h1 = norm h2 -> norm (add_unit h1 c u) = norm (add_unit h2 c u).
Proof.
  intro E. unfold add_unit. rewrite (nh_ctxs _ _ E). destruct (nth_error (h_ctxs h2) c) as [[[] ? ?]|]; auto. now apply with_ctxs_sim.
Qed.
Lemma unit_intf_uses_sim (h1 h2 : heap) u : norm h1 = norm h2 -> unit_intf_uses h1 u = unit_intf_uses h2 u.
Proof.
  intro E. unfold unit_intf_uses. pose proof (norm_nth _ _ u (nh_units _ _ E)) as D.
  destruct (nth_error (h_units h1) u) as [o1|], (nth_error (h_units h2) u) as [o2|]; try discriminate D; auto.
  apply norm_some, unitobj_inv in D as (_ & _ & _ & D & _). destruct (un_intf o1), (un_intf o2); try discriminate D; auto.
  apply norm_some in D. now rewrite (f_equal is_uses D : is_uses i = is_uses i0).
Qed.

(** ** Methods *)
Lemma new_uses_sim o1 o2 : norm o1 = norm o2 -> psim (new_uses o1) (new_uses o2).
Proof.
  intro O. apply psim_onheap. intros c h1 h2 E. rewrite (norm_length _ _ (nh_uses _ _ E)). split; [reflexivity|].
  apply with_uses_sim; auto. apply norm_app; [now apply nh_uses|]. exact (f_equal (fun x => [x]) O).
Qed.
Lemma new_unit_sim p i1 i2 : norm i1 = norm i2 -> psim (new_unit p i1) (new_unit p i2).
Proof.
  intro O. apply psim_onheap. intros c h1 h2 E. rewrite (norm_length _ _ (nh_units _ _ E)). split; [reflexivity|].
  apply with_units_sim; auto. apply norm_app; [now apply nh_units|]. apply cons_intro; [|reflexivity]. now apply unitobj_intro.
Qed.
Lemma change_unit_sim u f1 f2 : ufun_sim f1 f2 -> psim (change_unit u f1) (change_unit u f2).
Proof. intro F. apply psim_onheap. intros c h1 h2 E. split; [reflexivity|]. now apply put_unit_sim. Qed.
Lemma set_uses_sim l : psim (set_uses l) (set_uses l).
Proof.
  induction l as [|a l IH]; cbn [set_uses]; [apply psim_ret; reflexivity|].
  eapply psim_bind; [|intros; exact IH]. apply psim_onheap. intros c h1 h2 E.
  pose proof (norm_nth _ _ a (nh_uses _ _ E)) as D.
  destruct (nth_error (h_uses h1) a), (nth_error (h_uses h2) a); try discriminate D; [|exact I]. apply norm_some in D.
  pose proof (ctx_set_sim h1 h2 c [mkDecl (u_ident u) (NUses a)] [mkDecl (u_ident u0) (NUses a)] E (one_decl _ _ _ (f_equal u_ident D))) as M.
  destruct (ctx_set h1 c _), (ctx_set h2 c _); cbn [set_sim] in M; try contradiction; try exact I.
  - now split.
  - destruct M as [M1 M2]. split; auto. exact (f_equal EDup M2).
Qed.
Lemma parse_uses_item_sim : psim parse_uses_item parse_uses_item.
Proof.
  unfold parse_uses_item. go.
  - apply parse_string_factor_sim; [assumption|discriminate].
  - apply new_uses_sim. leaf.
Qed.
Lemma intf_decl_nodes_sim d1 d2 : norm d1 = norm d2 -> norm (intf_decl_nodes d1) = norm (intf_decl_nodes d2).
Proof.
  assert (M : forall A (NA : Norm A) (f : A -> list decl), (forall x y, norm x = norm y -> norm (f x) = norm (f y)) ->
              forall l1 l2 : list A, norm l1 = norm l2 -> norm (map f l1) = norm (map f l2)).
  { intros A NA f F. induction l1 as [|x l1 IH]; intros [|y l2] L; try discriminate L; [reflexivity|].
    apply norm_cons in L as [L1 L2]. cbn [map]. apply cons_intro; auto. }
  destruct d1, d2; intro H; try discriminate H; cbn [intf_decl_nodes].
  - assert (L : norm l = norm l0) by (change (IType (norm l) = IType (norm l0)) in H; congruence). eapply M; [|exact L].
    intros x y E. apply cons_intro; [|reflexivity]. apply decl_intro; [exact (f_equal td_ident E)|].
    exact (f_equal (fun z => NType (td_type z)) E).
  - assert (L : norm l = norm l0) by (change (IVar (norm l) = IVar (norm l0)) in H; congruence). eapply M; [|exact L].
    intros x y E. apply decls_of_sim. exact (f_equal vd_idents E).
  - assert (L : norm l = norm l0) by (change (IThreadVar (norm l) = IThreadVar (norm l0)) in H; congruence). eapply M; [|exact L].
    intros x y E. apply decls_of_sim. exact (f_equal tv_idents E).
  - assert (L : norm l = norm l0) by (change (IConst (norm l) = IConst (norm l0)) in H; congruence). eapply M; [|exact L].
    intros x y E. apply one_decl. exact (f_equal cd_ident E).
  - apply cons_intro; [|reflexivity]. apply one_decl. apply heading_ident_sim.
    exact (f_equal (fun z => match z with IHeading h _ _ => h | _ => norm h end) H).
Qed.
Lemma intf_nodes_sim l1 : forall l2, norm l1 = norm l2 -> norm (flat_map intf_decl_nodes l1) = norm (flat_map intf_decl_nodes l2).
Proof.
  induction l1 as [|x l1 IH]; intros [|y l2] L; try discriminate L; [reflexivity|].
  apply norm_cons in L as [L1 L2]. cbn [flat_map]. apply norm_app; auto. now apply intf_decl_nodes_sim.
Qed.
Lemma set_all_sim m l1 : forall l2 (h1 h2 : heap), norm l1 = norm l2 -> norm h1 = norm h2 -> norm (set_all h1 m l1) = norm (set_all h2 m l2).
Proof.
  induction l1 as [|x l1 IH]; intros [|y l2] h1 h2 L E; try discriminate L; cbn [set_all]; [now apply some_intro|].
  apply norm_cons in L as [L1 L2]. pose proof (map_set_sim _ _ m _ _ E L1) as M.
  destruct (map_set h1 m x), (map_set h2 m y); cbn [set_sim] in M; try contradiction; [now apply IH| |reflexivity].
  now apply IH.
Qed.

Section Methods.
Context (R1 R2 : recs) (RS : rsim R1 R2).
Let fuel_le := fuel_sim _ _ RS.
#[local] Hint Resolve fuel_le set_uses_sim parse_uses_item_sim : psim.
#[local] Hint Resolve parse_type_section_sim parse_var_section_sim parse_threadvar_section_sim parse_const_section_sim
  parse_exported_heading_sim parse_decl_sections_sim parse_exports_stmts_sim parse_stmt_list_sim : psim.

Lemma parse_uses_clause_sim : psim (parse_uses_clause R1) (parse_uses_clause R2).
Proof. unfold parse_uses_clause. go. Qed.
#[local] Hint Resolve parse_uses_clause_sim : psim.
Lemma parse_uses_next_sim : psim (parse_uses_next R1) (parse_uses_next R2).
Proof. unfold parse_uses_next. go. Qed.
#[local] Hint Resolve parse_uses_next_sim : psim.

Lemma parse_unit_ident_sim uc : psim (parse_unit_ident uc) (parse_unit_ident uc).
Proof.
  unfold parse_unit_ident. go.
  - apply psim_onheap. intros c h1 h2 E. rewrite (ctx_path_sim _ _ uc E). destruct (ctx_path h2 uc); [now split|exact I].
  - apply new_unit_sim. leaf.
  - apply change_unit_sim, with_port_sim. leaf.
Qed.
#[local] Hint Resolve parse_unit_ident_sim : psim.
Lemma parse_unit_intf_uses_sim u : psim (parse_unit_intf_uses R1 u) (parse_unit_intf_uses R2 u).
Proof. unfold parse_unit_intf_uses. go. apply change_unit_sim, with_intf_sim. leaf. Qed.
#[local] Hint Resolve parse_unit_intf_uses_sim : psim.
Lemma parse_ident_and_intf_uses_sim uc : psim (parse_ident_and_intf_uses R1 uc) (parse_ident_and_intf_uses R2 uc).
Proof. unfold parse_ident_and_intf_uses. go. Qed.
#[local] Hint Resolve parse_ident_and_intf_uses_sim : psim.

Lemma intf_decls_step_sim l1 l2 : norm l1 = norm l2 -> psim (intf_decls_step R1 l1) (intf_decls_step R2 l2).
Proof.
  intros. unfold intf_decls_step. go; apply psim_ret, inl_intro, norm_app; auto; (apply cons_intro; [|reflexivity]);
    [apply (f_equal IType)|apply (f_equal IVar)|apply (f_equal IThreadVar)|apply (f_equal IConst)]; now apply or_nil_sim.
Qed.
#[local] Hint Resolve intf_decls_step_sim : psim.
Lemma parse_unit_intf_body_sim u : psim (parse_unit_intf_body R1 u) (parse_unit_intf_body R2 u).
Proof.
  unfold parse_unit_intf_body. go. apply psim_onheap. intros c h1 h2 E.
  set (g1 := put_unit h1 u _). set (g2 := put_unit h2 u _).
  assert (G : norm g1 = norm g2).
  { apply put_unit_sim; auto. intros o1 o2 O. pose proof (unitobj_inv _ _ O) as (_ & _ & _ & F & _).
    apply with_intf_sim; auto. destruct (un_intf o1) as [s1|], (un_intf o2) as [s2|]; try discriminate F; [|reflexivity].
    apply norm_some in F. cbn [option_map]. apply some_intro. apply intfsection_intro; [exact (f_equal is_uses F)|].
    now apply nonempty_sim. }
  unfold new_map. rewrite (nh_maps _ _ G).
  set (k1 := with_maps _ g1). set (k2 := with_maps _ g2). assert (K : norm k1 = norm k2) by now apply with_maps_sim.
  pose proof (set_all_sim (DImpl (length (h_maps g2))) _ _ _ _ (intf_nodes_sim _ _ H) K) as M.
  destruct (set_all k1 _ _), (set_all k2 _ _); try discriminate M; [|exact I]. apply norm_some in M. split; [reflexivity|].
  apply put_unit_sim; auto. apply with_unit_map_sim.
Qed.
#[local] Hint Resolve parse_unit_intf_body_sim : psim.
Lemma process_intf_body_sim uc u : psim (process_intf_body R1 uc u) (process_intf_body R2 uc u).
Proof.
  unfold process_intf_body. go. apply psim_onheap. intros c h1 h2 E.
  rewrite (unit_intf_uses_sim _ _ u E). destruct (unit_intf_uses h2 u) as [us|]; [|exact I].
  pose proof (norm_nth _ _ u (nh_units _ _ E)) as D.
  destruct (nth_error (h_units h1) u) as [o1|], (nth_error (h_units h2) u) as [o2|]; try discriminate D; [|exact I].
  apply norm_some in D.
  pose proof (import_unit_decls_sim _ _ uc us E) as M.
  destruct (import_unit_decls h1 uc us) as [g1|], (import_unit_decls h2 uc us) as [g2|]; try discriminate M; [|exact I].
  apply norm_some in M.
  pose proof (ctx_set_sim g1 g2 uc [mkDecl (un_ident o1) (NUnit u)] [mkDecl (un_ident o2) (NUnit u)] M (one_decl _ _ _ (f_equal un_ident D))) as V.
  destruct (ctx_set g1 uc _), (ctx_set g2 uc _); cbn [set_sim] in V; try contradiction; try exact I.
  - now split.
  - destruct V as [V1 V2]. split; auto. exact (f_equal EDup V2).
Qed.
Lemma parse_impl_uses_sim uc u : psim (parse_impl_uses R1 uc u) (parse_impl_uses R2 uc u).
Proof.
  unfold parse_impl_uses. go.
  - apply psim_onheap. intros c h1 h2 E. unfold ctx_stack, new_chained, new_map. rewrite (nh_ctxs _ _ E), (nh_maps _ _ E).
    destruct (nth_error (h_ctxs h2) uc); [|exact I]. split; [reflexivity|]. now apply ctx_put_map_sim, with_maps_sim.
  - apply change_unit_sim, with_impl_sim. leaf.
Qed.
Lemma parse_impl_body_sim u : psim (parse_impl_body R1 u) (parse_impl_body R2 u).
Proof.
  unfold parse_impl_body. go; apply change_unit_sim; intros o1 o2 O; pose proof (unitobj_inv _ _ O) as (_ & _ & _ & _ & F & _);
    (apply with_impl_sim; auto); (destruct (un_impl o1) as [s1|], (un_impl o2) as [s2|]; try discriminate F; [|reflexivity]);
    apply norm_some in F; cbn [option_map]; apply some_intro; (apply implsection_intro; [exact (f_equal im_uses F)| |]);
    solve [assumption | exact (f_equal im_exports F) | exact (f_equal im_decls F)].
Qed.
Lemma parse_init_section_sim : psim (parse_init_section R1) (parse_init_section R2).
Proof.
  unfold parse_init_section. go.
  - apply psim_ret. now apply nonempty_sim.
  - apply psim_ret. apply initsection_intro; [now apply nonempty_sim|assumption].
Qed.
#[local] Hint Resolve parse_init_section_sim parse_impl_body_sim parse_impl_uses_sim : psim.
Lemma parse_unit_end_sim u : psim (parse_unit_end R1 u) (parse_unit_end R2 u).
Proof. unfold parse_unit_end. go. apply change_unit_sim, with_init_sim. leaf. Qed.
#[local] Hint Resolve parse_unit_end_sim : psim.
Lemma impl_scope_sim uc u l : psim (impl_scope uc u l) (impl_scope uc u l).
Proof.
  apply psim_onheap. intros c h1 h2 E. pose proof (assign_units_sim _ _ uc l E) as A.
  destruct (assign_units h1 uc l) as [g1|], (assign_units h2 uc l) as [g2|]; try discriminate A; [|exact I]. apply norm_some in A.
  rewrite (nh_ctxs _ _ A), (uses_units_sim _ _ l A). destruct (nth_error (h_ctxs g2) uc) as [co|]; [|exact I].
  pose proof (norm_nth _ _ u (nh_units _ _ A)) as D.
  destruct (nth_error (h_units g1) u) as [o1|], (nth_error (h_units g2) u) as [o2|]; try discriminate D; [|exact I].
  apply norm_some, unitobj_inv in D as (_ & _ & _ & _ & _ & _ & ->).
  unfold new_map. rewrite (nh_maps _ _ A).
  set (k1 := put_unit _ u _). set (k2 := put_unit _ u _).
  assert (K : norm k1 = norm k2) by (apply put_unit_sim; [now apply with_maps_sim|apply with_unit_map_sim]).
  rewrite (units_maps_sim _ _ _ K). split; [reflexivity|]. now apply ctx_put_map_sim.
Qed.
#[local] Hint Resolve impl_scope_sim : psim.
Lemma parse_unit_sim uc : psim (parse_unit R1 uc) (parse_unit R2 uc).
Proof. unfold parse_unit. go. Qed.

Lemma process_impl_and_init_sim uc u s1 s2 : ssim s1 s2 ->
  osim (process_impl_and_init R1 uc u s1) (process_impl_and_init R2 uc u s2).
Proof.
  intro S. unfold process_impl_and_init.
  assert (P : psim (Bind (parse_impl_uses R1 uc u) (fun l => impl_scope uc u l)) (Bind (parse_impl_uses R2 uc u) (fun l => impl_scope uc u l))) by go.
  specialize (P _ _ S).
  destruct (run _ s1) as [m1 t1|e1 t1| | |], (run _ s2) as [m2 t2|e2 t2| | |]; cbn [osim] in P; try contradiction; try exact I; try exact P.
  destruct P as [M T]. change (m1 = m2) in M. subst m2.
  assert (P : psim (Bind (parse_impl_body R1 u) (fun _ => parse_unit_end R1 u)) (Bind (parse_impl_body R2 u) (fun _ => parse_unit_end R2 u))) by go.
  specialize (P _ _ T).
  destruct (run _ t1) as [a1 v1|e1 v1| | |], (run _ t2) as [a2 v2|e2 v2| | |]; cbn [osim] in P |- *; try contradiction; try exact I; try exact P;
    destruct P as [P1 P2]; (split; [assumption || reflexivity|]); apply ssim_heap; auto; (apply put_unit_sim; [apply P2|apply with_unit_map_sim]).
Qed.
End Methods.
End WithUnicode.
