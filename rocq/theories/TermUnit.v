(** Units and programs end: what their methods do to the heap, and how they can fail. *)
From Coq Require Import String List NArith Bool Arith Lia.
From Verif Require Import ListUtil Runes UnicodeFacts Token Tokenizer CursorFacts TokenizerFacts LexSpec LexShape LexFacts LexMain
  Ast Ext Heap Classes MapSpec MapFacts Prog Parser ParseSpec RunFacts WpFacts TermSpec TermHeap TermFacts TermExpr
  TermTypes TermClass TermStmt FuelFacts TermMain Units TermUnitSpec.
Import ListNotations.
Local Open Scope list_scope.

(** ** What a result is like, whatever the state *)
Section Yields.
Context {U : Unicode}.
Definition yields {A} (p : prog A) (P : A -> Prop) : Prop := forall s a s', run p s = OOk a s' -> P a.
Lemma yields_any {A} (p : prog A) : yields p (fun _ => True).
Proof. intros s a s' _. exact I. Qed.
Lemma yields_ret {A} (a : A) (P : A -> Prop) : P a -> yields (Ret a) P.
Proof. intros H s b s' [= <- _]. exact H. Qed.
Lemma yields_bind {A B} (p : prog A) (k : A -> prog B) P0 P : yields p P0 -> (forall a, P0 a -> yields (k a) P) -> yields (Bind p k) P.
Proof.
  intros H K s b s' E. cbn [run] in E. destruct (run p s) as [a s1| | | |] eqn:R; try discriminate. eapply K; eauto.
Qed.
Lemma yields_after {A B} (p : prog A) (k : A -> prog B) P : (forall a, yields (k a) P) -> yields (Bind p k) P.
Proof. intros K. eapply yields_bind; [apply yields_any|auto]. Qed.
Lemma yields_traced {A} (p : prog A) P : yields p P -> yields (Traced p) P.
Proof.
  intros H s a s' E. cbn [run] in E. destruct (s_cur s); [|discriminate].
  destruct (run p s) as [b s1|e s1| | |] eqn:R; try discriminate; destruct (s_cur s1); try discriminate.
  injection E as <- <-. eauto.
Qed.
Lemma yields_scoped {A} (p : prog A) P : yields p P -> yields (Scoped p) P.
Proof.
  intros H s a s' E. cbn [run] in E. destruct (ctx_stack _ _) as [[h b]|]; [|discriminate].
  destruct (run p _) as [c s1| | | |] eqn:R; try discriminate. injection E as <- <-. eauto.
Qed.
Lemma yields_postscope {A} (p : prog A) P : yields p P -> yields (PostScope p) P.
Proof.
  intros H s a s' E. cbn [run] in E.
  destruct (run p _) as [c s1| | | |] eqn:R; try discriminate. injection E as <- <-. eauto.
Qed.
Lemma yields_fail {A} (p : prog A) P : (forall s a s', run p s <> OOk a s') -> yields p P.
Proof. intros H s a s' E. destruct (H _ _ _ E). Qed.
Lemma yields_loop {S A} fuel (body : S -> prog (S + A)) v (I : S -> Prop) (P : A -> Prop) :
  (forall v, I v -> yields (body v) (fun r => match r with inl v' => I v' | inr a => P a end)) -> I v ->
  yields (loop fuel body v) P.
Proof.
  intros B. revert v. induction fuel as [|fuel IH]; intros v Iv; cbn [loop].
  - apply yields_fail. discriminate.
  - eapply yields_bind; [now apply B|]. intros [v'|a] H; [now apply IH|now apply yields_ret].
Qed.
End Yields.
Ltac yl :=
  repeat lazymatch goal with
  | |- yields (Bind _ _) _ => apply yields_after; intros ?
  | |- yields (Ret _) _ => apply yields_ret
  | |- yields (let '(_, _) := ?x in _) _ => destruct x
  | |- yields (if ?b then _ else _) _ => destruct b
  | |- yields (match ?x with _ => _ end) _ => destruct x
  | |- yields (Traced _) _ => apply yields_traced
  | |- yields (Scoped _) _ => apply yields_scoped
  | |- yields (PostScope _) _ => apply yields_postscope
  | |- yields (FailAt _) _ => apply yields_fail; intros ? ? ?; cbn [run]; destruct (ctx_path _ _); discriminate
  | |- yields (Fail _) _ => apply yields_fail; discriminate
  | |- yields Crash _ => apply yields_fail; discriminate
  end.

Section Located.
Context {U : Unicode}.
Variable R : recs.
Definition located_ident (i : ident) : Prop := i_loc i <> None.
Lemma ident_list_located fuel term : yields (parse_ident_list_by fuel term) (Forall located_ident).
Proof.
  unfold parse_ident_list_by. eapply yields_bind with (P0 := Forall located_ident).
  - unfold until_list, until. apply (yields_loop _ _ _ (Forall located_ident)); [|constructor].
    intros l F. unfold until_step, append_with.
    eapply yields_bind with (P0 := fun o => match o with Some l => Forall located_ident l | None => True end).
    + eapply yields_bind with (P0 := located_ident).
      * unfold parse_ident. yl. unfold located_ident. discriminate.
      * intros i Li. yl. apply Forall_app. auto.
    + intros [l'|] F'; yl; assumption.
  - intros l F. yl. exact F.
Qed.
Lemma type_section_located req :
  yields (parse_type_section R req) (fun r => Forall (fun d => located_ident (td_ident d)) (or_nil r)).
Proof.
  unfold parse_type_section. apply yields_after. intros b. destruct b; [|yl; constructor].
  apply yields_postscope, yields_after. intros _.
  eapply yields_bind; [|intros l F; yl; exact F].
  apply (yields_loop _ _ _ (Forall (fun d => located_ident (td_ident d)))); [|constructor].
  intros l F. unfold type_section_step. eapply yields_bind with (P0 := fun d => located_ident (td_ident d)).
  - unfold parse_type_decl. yl; unfold located_ident; cbn; discriminate.
  - intros d Ld. yl; apply Forall_app; auto.
Qed.
Lemma const_section_located req :
  yields (parse_const_section R req) (fun r => Forall (fun d => located_ident (cd_ident d)) (or_nil r)).
Proof.
  unfold parse_const_section. apply yields_after. intros b. destruct b; [|yl; constructor].
  apply yields_after. intros _.
  eapply yields_bind; [|intros l F; yl; exact F].
  apply (yields_loop _ _ _ (Forall (fun d => located_ident (cd_ident d)))); [|constructor].
  intros l F. unfold const_section_step. eapply yields_bind with (P0 := fun d => located_ident (cd_ident d)).
  - unfold parse_constant_decl. yl; unfold located_ident; cbn; discriminate.
  - intros d Ld. yl; apply Forall_app; auto.
Qed.
Lemma var_section_located req :
  yields (parse_var_section R req) (fun r => Forall (fun d => Forall located_ident (vd_idents d)) (or_nil r)).
Proof.
  unfold parse_var_section. apply yields_after. intros b. destruct b; [|yl; constructor].
  apply yields_after. intros _.
  eapply yields_bind; [|intros l F; yl; exact F].
  apply (yields_loop _ _ _ (Forall (fun d => Forall located_ident (vd_idents d)))); [|constructor].
  intros l F. unfold var_section_step. eapply yields_bind with (P0 := fun d => Forall located_ident (vd_idents d)).
  - unfold parse_var_decl. eapply yields_bind; [apply ident_list_located|]. intros ids Fi. yl; exact Fi.
  - intros d Ld. yl; apply Forall_app; auto.
Qed.
Lemma threadvar_section_located req :
  yields (parse_threadvar_section R req) (fun r => Forall (fun d => Forall located_ident (tv_idents d)) (or_nil r)).
Proof.
  unfold parse_threadvar_section. apply yields_after. intros b. destruct b; [|yl; constructor].
  apply yields_after. intros _.
  eapply yields_bind; [|intros l F; yl; exact F].
  apply (yields_loop _ _ _ (Forall (fun d => Forall located_ident (tv_idents d)))); [|constructor].
  intros l F. unfold threadvar_section_step. eapply yields_bind with (P0 := fun d => Forall located_ident (tv_idents d)).
  - unfold parse_threadvar_decl. eapply yields_bind; [apply ident_list_located|]. intros ids Fi. yl; exact Fi.
  - intros d Ld. yl; apply Forall_app; auto.
Qed.
Lemma heading_located : yields (parse_function_heading R) (fun h => located_ident (heading_ident h)).
Proof. unfold parse_function_heading. yl; unfold located_ident; cbn; discriminate. Qed.

Definition decls_located (d : intfdecl) : Prop :=
  Forall (Forall (fun o => located_ident (d_ident o) /\ match d_node o with NUses _ | NUnit _ | NProgram _ => False | _ => True end))
    (intf_decl_nodes d).
Lemma intf_step_located l : Forall decls_located l ->
  yields (intf_decls_step R l) (fun r => match r with inl l' | inr l' => Forall decls_located l' end).
Proof.
  intros F. unfold intf_decls_step. apply yields_after. intros t.
  destruct (p_type EOF t); [yl; exact F|]. destruct (negb _); [yl|]. cbv zeta.
  assert (G : forall (r : intfdecl), decls_located r -> Forall decls_located (l ++ [r]))
    by (intros r Hr; apply Forall_app; auto).
  destruct (eqs (value t) "TYPE").
  { eapply yields_bind; [apply type_section_located|]. intros r Fr. yl. apply G. unfold decls_located. cbn [intf_decl_nodes].
    rewrite Forall_map. eapply Forall_impl; [|exact Fr]. intros d Ld. repeat constructor. exact Ld. }
  destruct (eqs (value t) "VAR").
  { eapply yields_bind; [apply var_section_located|]. intros r Fr. yl. apply G. unfold decls_located. cbn [intf_decl_nodes].
    rewrite Forall_map. eapply Forall_impl; [|exact Fr]. intros d Ld. rewrite Forall_map.
    eapply Forall_impl; [|exact Ld]. intros i Li. split; [exact Li|exact I]. }
  destruct (eqs (value t) "THREADVAR").
  { eapply yields_bind; [apply threadvar_section_located|]. intros r Fr. yl. apply G. unfold decls_located. cbn [intf_decl_nodes].
    rewrite Forall_map. eapply Forall_impl; [|exact Fr]. intros d Ld. rewrite Forall_map.
    eapply Forall_impl; [|exact Ld]. intros i Li. split; [exact Li|exact I]. }
  destruct (eqs (value t) "CONST").
  { eapply yields_bind; [apply const_section_located|]. intros r Fr. yl. apply G. unfold decls_located. cbn [intf_decl_nodes].
    rewrite Forall_map. eapply Forall_impl; [|exact Fr]. intros d Ld. repeat constructor. exact Ld. }
  assert (X : yields (parse_exported_heading R) decls_located).
  { unfold parse_exported_heading. apply yields_scoped, yields_after. intros t1.
    eapply yields_bind with (P0 := fun h => match h with Some h => located_ident (heading_ident h) | None => True end).
    - destruct (eqs_any _ _); [|yl; exact I]. eapply yields_bind; [apply heading_located|]. intros h Lh. yl. exact Lh.
    - intros h Lh. apply yields_after. intros _. destruct h as [h|]; [|yl]. yl. repeat constructor. exact Lh. }
  destruct (eqs (value t) "FUNCTION"); [eapply yields_bind; [exact X|]; intros r Hr; yl; auto|].
  destruct (eqs (value t) "PROCEDURE"); [eapply yields_bind; [exact X|]; intros r Hr; yl; auto|].
  yl. exact F.
Qed.
Lemma intf_decls_located : yields (loop (r_fuel R) (intf_decls_step R) []) (Forall decls_located).
Proof.
  apply (yields_loop _ _ _ (Forall decls_located)); [|constructor]. intros l F.
  intros s r s' E. pose proof (intf_step_located l F s r s' E) as X. destruct r; exact X.
Qed.
End Located.

(** ** Changes of the heap that units and programs make *)
Record wider (h h' : heap) : Prop := mkWider {
  w_maps : length (h_maps h) <= length (h_maps h');
  w_decls : exists l, h_decls h' = h_decls h ++ l;
  w_uses : forall a o, nth_error (h_uses h) a = Some o ->
    exists o', nth_error (h_uses h') a = Some o' /\ u_ident o' = u_ident o /\ u_path o' = u_path o;
  w_units : forall u o, nth_error (h_units h) u = Some o ->
    exists o', nth_error (h_units h') u = Some o' /\ un_ident o' = un_ident o /\
      forall s, un_intf o = Some s -> exists s', un_intf o' = Some s' /\ is_uses s' = is_uses s;
  w_there : forall u, unit_there h u -> unit_there h' u;
  w_progs : forall a o, nth_error (h_progs h) a = Some o ->
    exists o', nth_error (h_progs h') a = Some o' /\ pr_ident o' = pr_ident o /\
      (usable h (pr_map o) -> usable h' (pr_map o'));
  w_ctxs : exists l, map chead (h_ctxs h') = map chead (h_ctxs h) ++ l }.
Lemma wider_refl h : wider h h.
Proof. constructor; eauto 6; exists []; now rewrite app_nil_r. Qed.
Lemma wider_trans h1 h2 h3 : wider h1 h2 -> wider h2 h3 -> wider h1 h3.
Proof.
  intros [M1 (l1 & D1) U1 V1 T1 P1 (k1 & C1)] [M2 (l2 & D2) U2 V2 T2 P2 (k2 & C2)]. constructor.
  - lia.
  - exists (l1 ++ l2). now rewrite D2, D1, app_assoc.
  - intros a o E. destruct (U1 _ _ E) as (o1 & E1 & A & B). destruct (U2 _ _ E1) as (o2 & E2 & A2 & B2).
    exists o2. repeat split; congruence.
  - intros u o E. destruct (V1 _ _ E) as (o1 & E1 & A & B). destruct (V2 _ _ E1) as (o2 & E2 & A2 & B2).
    exists o2. split; [exact E2|]. split; [congruence|]. intros s Es. destruct (B s Es) as (s1 & X1 & Y1).
    destruct (B2 s1 X1) as (s2 & X2 & Y2). exists s2. split; [exact X2|congruence].
  - auto.
  - intros a o E. destruct (P1 _ _ E) as (o1 & E1 & A & B). destruct (P2 _ _ E1) as (o2 & E2 & A2 & B2).
    exists o2. repeat split; auto; congruence.
  - exists (k1 ++ k2). now rewrite C2, C1, app_assoc.
Qed.
Lemma wider_grew lax h h' : grew lax h h' -> wider h h'.
Proof.
  intros G. pose proof G as [M (l & D & _) _ _ U1 V W C]. constructor; auto.
  - eauto.
  - rewrite U1. eauto 6.
  - rewrite V. eauto 8.
  - intros u. now apply (unit_there_grew lax).
  - rewrite W. intros a o E. exists o. repeat split; auto. now apply (usable_grew lax).
Qed.
Lemma chead_wider h h' c o : wider h h' -> nth_error (h_ctxs h) c = Some o ->
  exists o', nth_error (h_ctxs h') c = Some o' /\ chead o' = chead o.
Proof.
  intros W E. destruct (w_ctxs _ _ W) as (l & M).
  assert (N : nth_error (map chead (h_ctxs h')) c = Some (chead o)).
  { rewrite M. rewrite nth_error_app1; [now apply map_nth_error|]. rewrite map_length. eapply nth_lt; eauto. }
  destruct (nth_error (h_ctxs h') c) as [o'|] eqn:E'.
  - rewrite (map_nth_error chead _ _ E') in N. exists o'. split; [reflexivity|congruence].
  - exfalso. apply nth_error_None in E'. assert (L : c < length (map chead (h_ctxs h'))) by (eapply nth_lt; eauto).
    rewrite map_length in L. lia.
Qed.

(** The units of uses clauses have their declarations. *)
Definition uses_fine (h : heap) : Prop := Forall (fun o => forall u, u_unit o = Some u -> unit_there h u) (h_uses h).
Lemma uses_fine_same h h' : (forall u, unit_there h u -> unit_there h' u) -> h_uses h' = h_uses h -> uses_fine h -> uses_fine h'.
Proof. intros T E F. unfold uses_fine. rewrite E. eapply Forall_impl; [|exact F]. cbn. auto. Qed.
Lemma uses_fine_grew lax h h' : grew lax h h' -> uses_fine h -> uses_fine h'.
Proof. intros G. apply uses_fine_same; [intros u; now apply (unit_there_grew lax)|apply G]. Qed.

Section Wide.
Context {U : Unicode} {UOK : UnicodeOk U} {unmapped : Unmapped}.
Local Notation node_there := (node_there unmapped).
Local Notation declared := (declared unmapped).
Local Notation sound := (sound_but unmapped).
Variable lax : bool.
Variable D : nat.

Lemma node_there_wider h h' k n : wider h h' -> uses_fine h' -> node_there h k n -> node_there h' k n.
Proof.
  intros W F. destruct n; cbn; auto.
  - intros (o & E & _). destruct (w_uses _ _ W _ _ E) as (o' & E' & _). exists o'. split; [exact E'|].
    unfold uses_fine in F. rewrite Forall_forall in F. apply F. eapply nth_error_In; eauto.
  - intros [H|H]; [left; now apply (w_there _ _ W)|now right].
  - intros (o & E & P). destruct (w_progs _ _ W _ _ E) as (o' & E' & _ & P'). eauto.
Qed.
Lemma deref_wider h h' d o : wider h h' -> deref h d = Some o -> deref h' d = Some o.
Proof.
  intros W. destruct (w_decls _ _ W) as (l & E). destruct d as [i|a]; cbn; [auto|]. rewrite E. intros N.
  rewrite nth_error_app1; [exact N|]. eapply nth_lt; eauto.
Qed.
Lemma declared_wider h h' k d : wider h h' -> uses_fine h' -> declared h k d -> declared h' k d.
Proof.
  intros W F (o & E & L & N). exists o. split; [eapply deref_wider; eauto|]. split; [exact L|].
  eapply node_there_wider; eauto.
Qed.
Lemma entries_wider h h' m : wider h h' -> uses_fine h' -> entries_ok h m -> entries_ok h' m.
Proof.
  intros W F E. eapply Forall_impl; [|exact E]. intros e (d & Ed & Dd). exists d. split; [exact Ed|].
  eapply declared_wider; eauto.
Qed.
Lemma sound_wider h h' : wider h h' -> uses_fine h' -> h_maps h' = h_maps h -> Forall (ctx_ok h') (h_ctxs h') ->
  sound h -> sound h'.
Proof.
  intros W F M C [A B]. split; [exact C|]. rewrite M. eapply Forall_impl; [|exact B]. intros m. now apply entries_wider.
Qed.
Lemma ctxs_wider h h' : length (h_maps h) <= length (h_maps h') -> h_ctxs h' = h_ctxs h -> sound h -> Forall (ctx_ok h') (h_ctxs h').
Proof.
  intros L C [A _]. rewrite C. eapply Forall_impl; [|exact A]. intros o [K V]. split; [exact K|]. eapply usable_maps; eauto.
Qed.
Lemma ctx_path_wider h h' c p : sound h -> wider h h' -> ctx_path h c = Some p -> ctx_path h' c = Some p.
Proof.
  intros S W E. destruct (ctx_path_inv _ _ _ S E) as (o & N & Q & _).
  destruct (chead_wider _ _ _ _ W N) as (o' & N' & C). eapply ctx_path_of; eauto. unfold chead in C. congruence.
Qed.

Definition wstep (h h' : heap) : Prop :=
  sound h' /\ uses_fine h' /\ wider h h' /\ (lax = true \/ (shallow D h -> shallow D h')).
Lemma wstep_refl h : sound h -> uses_fine h -> wstep h h.
Proof. intros S F. repeat split; auto; try apply S; apply wider_refl. Qed.
Lemma wstep_trans h1 h2 h3 : wstep h1 h2 -> wstep h2 h3 -> wstep h1 h3.
Proof.
  intros (S1 & F1 & W1 & H1) (S2 & F2 & W2 & H2). split; [exact S2|]. split; [exact F2|]. split; [eapply wider_trans; eauto|].
  destruct H1; [now left|]. destruct H2; [now left|]. right. auto.
Qed.
Lemma wstep_good h h' : uses_fine h -> good_step lax h h' -> wstep h h'.
Proof.
  intros F [S G]. split; [exact S|]. split; [eapply uses_fine_grew; eauto|]. split; [eapply wider_grew; eauto|].
  destruct lax eqn:LX; [now left|right]. now apply (shallow_grew false).
Qed.
Lemma shallow_keep h h' : h_decls h' = h_decls h -> h_refs h' = h_refs h -> shallow D h -> shallow D h'.
Proof.
  intros E1 E2 Sh d o ty Ed Nd.
  assert (DE : forall x, deref h' x = deref h x) by (intros [i|a]; cbn; [reflexivity|now rewrite E1]).
  rewrite DE in Ed. specialize (Sh d o ty Ed Nd). clear Ed Nd d o. revert ty Sh. generalize D as n.
  assert (RT : forall ti, ref_type h' ti = ref_type h ti).
  { intros ti. unfold ref_type, ref_of. rewrite E2. destruct (nth_error (h_refs h) (ti_ref ti)) as [[d|]|]; auto. now rewrite DE. }
  induction n as [|n IH]; intros ty; cbn [short]; [auto|]. intros [C L]. split; [rewrite E2; exact C|].
  intros ty' Le. apply IH, L. inversion Le; subst; constructor; now rewrite <- RT.
Qed.
(** Nothing changed but uses clauses, units and programs *)
Definition same_rest (h h' : heap) : Prop :=
  h_maps h' = h_maps h /\ h_decls h' = h_decls h /\ h_refs h' = h_refs h /\ h_ctxs h' = h_ctxs h.
Lemma wstep_rest h h' : same_rest h h' -> wider h h' -> uses_fine h' -> sound h -> wstep h h'.
Proof.
  intros (M & Dc & Rf & C) W F S. split; [|split; [exact F|split; [exact W|right; now apply shallow_keep]]].
  apply (sound_wider h); auto. apply (ctxs_wider h); auto. now rewrite M.
Qed.
Lemma usable_same h h' m : h_maps h' = h_maps h -> usable h m -> usable h' m.
Proof. intros E. apply usable_maps. now rewrite E. Qed.
Lemma nth_app_l {A} (l l' : list A) n x : nth_error l n = Some x -> nth_error (l ++ l') n = Some x.
Proof. intros E. rewrite nth_error_app1; [exact E|]. eapply nth_lt; eauto. Qed.
Lemma same_ctxs (h : heap) : exists l, map chead (h_ctxs h) = map chead (h_ctxs h) ++ l.
Proof. exists []. now rewrite app_nil_r. Qed.
Lemma same_decls (h : heap) : exists l, h_decls h = h_decls h ++ l.
Proof. exists []. now rewrite app_nil_r. Qed.

Lemma there_same h h' u : h_maps h' = h_maps h -> h_units h' = h_units h -> unit_there h u -> unit_there h' u.
Proof. intros E1 E2 (o & E & P). exists o. rewrite E2. split; [exact E|]. now apply (usable_same h). Qed.
Ltac wsame := constructor; cbn; auto using same_ctxs, same_decls; try (intros ?; now apply there_same);
  try (intros ? x ?; exists x; split; [assumption|split; [reflexivity|first [now apply usable_same|now eauto]]]).
Lemma wstep_new_uses h o : sound h -> uses_fine h -> u_unit o = None -> wstep h (with_uses (h_uses h ++ [o]) h).
Proof.
  intros S F N. apply wstep_rest; [now repeat split| | |exact S].
  - wsame. intros a x E. exists x. split; [now apply nth_app_l|auto].
  - unfold uses_fine in *. cbn. apply Forall_app.
    split; [eapply Forall_impl; [|exact F]; cbn; intros x X u Eu; now apply (there_same h), X|].
    constructor; [|constructor]. rewrite N. discriminate.
Qed.
Lemma wstep_new_unit h o : sound h -> uses_fine h -> wstep h (with_units (h_units h ++ [o]) h).
Proof.
  intros S F.
  assert (T : forall u, unit_there h u -> unit_there (with_units (h_units h ++ [o]) h) u).
  { intros u (x & E & P). exists x. split; [now apply nth_app_l|now apply (usable_same h)]. }
  apply wstep_rest; [now repeat split| |now apply (uses_fine_same h)|exact S].
  wsame.
  intros u x E. exists x. split; [now apply nth_app_l|eauto].
Qed.
Lemma nth_set_same {A} n (v : A) l x : nth_error l n = Some x -> nth_error (set_nth n v l) n = Some v.
Proof. revert n. induction l as [|y l IH]; intros [|n]; cbn; try discriminate; auto. Qed.
Lemma nth_set_other {A} n m (v : A) l : n <> m -> nth_error (set_nth n v l) m = nth_error l m.
Proof. revert n m. induction l as [|y l IH]; intros [|n] [|m] N; cbn; auto; congruence. Qed.
Lemma wstep_put_unit h u f : sound h -> uses_fine h ->
  (forall o, nth_error (h_units h) u = Some o -> un_ident (f o) = un_ident o /\
     (forall s, un_intf o = Some s -> exists s', un_intf (f o) = Some s' /\ is_uses s' = is_uses s) /\
     (usable h (un_map o) -> usable h (un_map (f o)))) ->
  wstep h (put_unit h u f).
Proof.
  intros S F Hf. unfold put_unit. destruct (nth_error (h_units h) u) as [o|] eqn:E; [|now apply wstep_refl].
  destruct (Hf o eq_refl) as (I1 & I2 & I3).
  assert (X : forall v x, nth_error (h_units h) v = Some x -> exists x', nth_error (set_nth u (f o) (h_units h)) v = Some x' /\
            ((v = u /\ x = o /\ x' = f o) \/ x' = x)).
  { intros v x Ev. destruct (Nat.eq_dec u v) as [->|N].
    - exists (f o). split; [eapply nth_set_same; eauto|]. left. repeat split. congruence.
    - exists x. rewrite nth_set_other by exact N. auto. }
  assert (T : forall v, unit_there h v -> unit_there (with_units (set_nth u (f o) (h_units h)) h) v).
  { intros v (x & Ev & P). destruct (X v x Ev) as (x' & E' & [(-> & -> & ->)| ->]); eexists; (split; [exact E'|]); apply (usable_same h); auto. }
  apply wstep_rest; [now repeat split| |now apply (uses_fine_same h)|exact S].
  wsame.
  intros v x Ev. destruct (X v x Ev) as (x' & E' & [(-> & -> & ->)| ->]); eexists; (split; [exact E'|]); eauto.
Qed.
Lemma wstep_uses_put h a u : sound h -> uses_fine h -> unit_there h u -> wstep h (uses_put_unit h a u).
Proof.
  intros S F T. unfold uses_put_unit. destruct (nth_error (h_uses h) a) as [o|] eqn:E; [|now apply wstep_refl].
  apply wstep_rest; [now repeat split| | |exact S].
  - wsame.
    intros b x Eb. destruct (Nat.eq_dec a b) as [->|N].
    + eexists. split; [eapply nth_set_same; eauto|]. cbn. assert (x = o) by congruence. subst. auto.
    + exists x. rewrite nth_set_other by exact N. auto.
  - unfold uses_fine in *. cbn. apply set_nth_forall.
    + cbn. intros v [= <-]. now apply (there_same h).
    + eapply Forall_impl; [|exact F]; cbn; intros x X v Ev; now apply (there_same h), X.
Qed.
Lemma wstep_new_prog h o : sound h -> uses_fine h -> wstep h (with_progs (h_progs h ++ [o]) h).
Proof.
  intros S F. apply wstep_rest; [now repeat split| | |exact S].
  - wsame.
    intros u x E. exists x. split; [now apply nth_app_l|]. split; [reflexivity|]. now apply usable_same.
  - apply (uses_fine_same h); auto. intros u. now apply there_same.
Qed.
Lemma wstep_put_prog h a o' : sound h -> uses_fine h ->
  (forall o, nth_error (h_progs h) a = Some o -> pr_ident o' = pr_ident o /\ (usable h (pr_map o) -> usable h (pr_map o'))) ->
  wstep h (with_progs (set_nth a o' (h_progs h)) h).
Proof.
  intros S F H. apply wstep_rest; [now repeat split| | |exact S].
  - wsame.
    intros b x E. destruct (Nat.eq_dec a b) as [->|N]; [|exists x; rewrite nth_set_other by exact N; split; [exact E|]; split; [reflexivity|now apply usable_same]].
    + eexists. split; [eapply nth_set_same; eauto|]. destruct (H x E) as [I1 I2]. split; [exact I1|]. intros X. now apply (usable_same h), I2.
  - apply (uses_fine_same h); auto. intros u. now apply there_same.
Qed.
End Wide.

(** ** Running a method of a unit or a program *)
Section Does.
Context {U : Unicode} {UOK : UnicodeOk U} {unmapped : Unmapped}.
Local Notation node_there := (node_there unmapped).
Local Notation declared := (declared unmapped).
Local Notation sound := (sound_but unmapped).
Variable text : list rune.
Variable path : gostring.
Variable lax : bool.
Variable D : nat.
Local Notation ok := (TermFacts.ok text path lax D).
Local Notation fin := (TermFacts.fin text path lax D).
Local Notation mu := (TermFacts.mu text).
Local Notation wstep := (wstep lax D).

Definition okw (s : pst) : Prop := ok s /\ uses_fine (s_heap s).
Definition does {A} (p : prog A) (s : pst) (Q : A -> pst -> Prop) : Prop :=
  match run p s with
  | OOk a s' => okw s' /\ wider (s_heap s) (s_heap s') /\ mu s' <= mu s /\ Q a s'
  | OErr e _ => error_at text path e
  | OPanic => crashes text
  | OHang => open_string text
  | OStuck => lax = true
  end.

Lemma does_ret {A} (a : A) s (Q : A -> pst -> Prop) : okw s -> Q a s -> does (Ret a) s Q.
Proof. intros O H. unfold does. cbn [run]. auto using wider_refl. Qed.
Lemma does_bind {A B} (p : prog A) (k : A -> prog B) s Q :
  does p s (fun a s' => does (k a) s' Q) -> does (Bind p k) s Q.
Proof.
  unfold does. cbn [run]. destruct (run p s) as [a s'|e s'| | |]; auto. intros (O & L & M & H).
  destruct (run (k a) s') as [b s2|e s2| | |]; auto. destruct H as (O2 & L2 & M2 & H2).
  split; [exact O2|]. split; [eapply wider_trans; eauto|]. split; [lia|exact H2].
Qed.
Lemma does_conseq {A} (p : prog A) s (Q0 Q : A -> pst -> Prop) : does p s Q0 ->
  (forall a s', okw s' -> wider (s_heap s) (s_heap s') -> mu s' <= mu s -> Q0 a s' -> Q a s') -> does p s Q.
Proof. unfold does. destruct (run p s) as [a s'|e s'| | |]; auto. intros (O & L & M & H) X. auto 6. Qed.
Lemma does_join {A B} (p : prog A) (k : A -> prog B) s (Q0 : A -> pst -> Prop) (Q : B -> pst -> Prop) :
  does p s Q0 ->
  (forall a s', okw s' -> wider (s_heap s) (s_heap s') -> mu s' <= mu s -> Q0 a s' -> does (k a) s' Q) ->
  does (Bind p k) s Q.
Proof. intros F H. apply does_bind. eapply does_conseq; eauto. Qed.
Lemma does_fin {A} from (p : prog A) s (Q0 Q : A -> pst -> Prop) : okw s -> fin from p s Q0 ->
  (forall a s', okw s' -> wider (s_heap s) (s_heap s') -> mu s' <= mu s -> Q0 a s' -> Q a s') -> does p s Q.
Proof.
  intros [O F] X H. unfold does. unfold TermFacts.fin in X. destruct (run p s) as [a s'|e s'| | |]; auto.
  2:{ destruct X as (_ & _ & X). destruct e; auto. destruct X as (-> & t & X1 & X2 & X3 & _). split; [reflexivity|]. eauto. }
  destruct X as (O' & (_ & M & G) & HQ).
  assert (W : wider (s_heap s) (s_heap s')) by (eapply wider_grew; eauto).
  assert (O2 : okw s') by (split; [exact O'|eapply uses_fine_grew; eauto]). auto 6.
Qed.
Lemma okw_heap s h : okw s -> wstep (s_heap s) h -> okw (with_heap h s).
Proof.
  intros [[(P & AB & SO & CP & SH) N] _] (S' & F' & W & K). split; [|exact F']. split; [|exact N].
  split; [exact P|]. split; [exact AB|]. split; [exact S'|]. split; cbn [with_heap s_heap s_ctx].
  - exact (ctx_path_wider _ _ _ _ SO W CP).
  - destruct SH as [?|[L SH]]; [now left|]. destruct K as [?|K]; [now left|]. right. auto.
Qed.
Lemma does_onheap {A} (f : nat -> heap -> hres A) s (Q : A -> pst -> Prop) : okw s ->
  match f (s_ctx s) (s_heap s) with
  | HOk a h => wstep (s_heap s) h /\ Q a (with_heap h s)
  | HErr e _ => error_at text path e
  | HPanic => crashes text
  | HStuck => lax = true
  end -> does (OnHeap f) s Q.
Proof.
  intros O H. unfold does. cbn [run]. destruct (f (s_ctx s) (s_heap s)) as [a h|e h| |]; auto.
  destruct H as [G H]. split; [now apply okw_heap|]. split; [apply G|]. split; [apply le_n|exact H].
Qed.
Lemma does_loop {S A : Type} (I : S -> pst -> Prop) (Q : A -> pst -> Prop) (body : S -> prog (S + A)) :
  (forall v s, okw s -> I v s ->
     does (body v) s (fun r s' => match r with inl v' => I v' s' /\ (lax = true \/ mu s' < mu s) | inr a => Q a s' end)) ->
  forall fuel v s, okw s -> I v s -> lax = true \/ mu s < fuel -> does (loop fuel body v) s Q.
Proof.
  intros H. induction fuel as [|fuel IH]; intros v s O Iv Fu; cbn [loop].
  - unfold does. cbn [run]. destruct Fu; [assumption|lia].
  - eapply does_join; [now apply H|]. intros [v'|a] s' O' B1 B2 HQ.
    + destruct HQ as [Iv' Lt]. apply IH; try assumption. lia.
    + now apply does_ret.
Qed.
Lemma okw_sound s : okw s -> sound (s_heap s).
Proof. intros [O _]. eapply ok_sound; eauto. Qed.
Lemma okw_path s : okw s -> ctx_path (s_heap s) (s_ctx s) = Some path.
Proof. intros [O _]. eapply ok_path; eauto. Qed.
Lemma okw_fine s : okw s -> uses_fine (s_heap s).
Proof. intros [_ F]. exact F. Qed.
End Does.
