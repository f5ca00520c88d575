(** Items of uses clauses and their units. *)
From Coq Require Import String List Arith NArith Bool Lia.
From Verif Require Import ListUtil Runes UnicodeFacts Token Tokenizer LexSpec LexShape LexFacts LexMain Ext ExtMain Ast Heap Classes MapSpec MapFacts MapMain Prog Parser ParseSpec RunFacts
  ExprSpec WpFacts ExprFacts StmtSpec GrowFacts StmtFacts EvolveFacts EvolveParse Units UnitSpec UsesMain TermUnitSpec DeclSpec ScopeFacts DeclFacts TypeFacts SectionFacts DeclMain TermUnit UnitTextSpec UnitTextFacts UnitBodyFacts ProgramTextSpec ProgramTextFacts.
Import ListNotations.
Local Open Scope list_scope.
Local Open Scope prog_scope.

Section WithUnicode.
Context {U : Unicode} {UOK : UnicodeOk U}.
Notation words := (list (ttype * gostring)).

(** ** Methods that leave the contexts as they are *)
Definition unitless (l : list usesitem) : Prop := Forall (fun o => u_unit o = None) l.
Definition still {A} (p : prog A) : Prop := forall s a s', run p s = OOk a s' ->
  s_ctx s' = s_ctx s /\ h_ctxs (s_heap s') = h_ctxs (s_heap s) /\ exists l, h_uses (s_heap s') = h_uses (s_heap s) ++ l /\ unitless l.
Lemma still_same {A} (p : prog A) : (forall s a s', run p s = OOk a s' -> s_ctx s' = s_ctx s /\ s_heap s' = s_heap s) -> still p.
Proof. intros H s a s' E. destruct (H s a s' E) as [-> ->]. split; [reflexivity|]. split; [reflexivity|]. exists []. rewrite app_nil_r. split; [reflexivity|constructor]. Qed.
Lemma still_bind {A B} (p : prog A) (k : A -> prog B) : still p -> (forall a, still (k a)) -> still (Bind p k).
Proof.
  intros P K s b s' E. cbn [run] in E. destruct (run p s) as [a s1| | | |] eqn:R; try discriminate.
  destruct (P s a s1 R) as (C1 & H1 & l1 & U1 & N1). destruct (K a s1 b s' E) as (C2 & H2 & l2 & U2 & N2). split; [congruence|]. split; [congruence|].
  exists (l1 ++ l2). rewrite U2, U1, app_assoc. split; [reflexivity|]. now apply Forall_app.
Qed.
Lemma still_ret {A} (a : A) : still (Ret a).
Proof. apply still_same. now intros s b s' [= <- <-]. Qed.
Lemma still_next : still Next.
Proof. apply still_same. intros s b s' E. cbn [run] in E. unfold next_token in E. destruct (get_next _); try discriminate; now injection E as <- <-. Qed.
Lemma still_Cur : still Cur.
Proof. apply still_same. now intros s b s' [= <- <-]. Qed.
Lemma still_failat {A} t : still (@FailAt A t).
Proof. intros s a s'. cbn [run]. destruct (ctx_path _ _); discriminate. Qed.
Lemma still_fail {A} e : still (@Fail A e).
Proof. intros s a s'. discriminate. Qed.
Lemma still_crash {A} : still (@Crash A).
Proof. intros s a s'. discriminate. Qed.
Lemma still_nofuel {A} : still (@NoFuel A).
Proof. intros s a s'. discriminate. Qed.
Lemma still_onheap {A} (f : nat -> heap -> hres A) : (forall c h a h', f c h = HOk a h' ->
  h_ctxs h' = h_ctxs h /\ exists l, h_uses h' = h_uses h ++ l /\ unitless l) -> still (OnHeap f).
Proof.
  intros H s a s' E. cbn [run] in E. destruct (f (s_ctx s) (s_heap s)) as [x h'| | |] eqn:F; try discriminate.
  injection E as <- <-. split; [reflexivity|]. eapply H; eauto.
Qed.
Lemma still_loop {S A} (body : S -> prog (S + A)) : (forall x, still (body x)) -> forall fuel x, still (loop fuel body x).
Proof.
  intros B. induction fuel as [|f IH]; intros x; cbn [loop]; [apply still_nofuel|].
  apply still_bind; [apply B|]. intros [y|y]; [apply IH|apply still_ret].
Qed.
Lemma still_validate t p : still (validate t p).
Proof. unfold validate. destruct t as [t|]; [|apply still_fail]. destruct (p t); [apply still_ret|apply still_failat]. Qed.
Lemma still_cur : still cur.
Proof. apply still_bind; [apply still_Cur|]. intros [t|]; [apply still_ret|apply still_crash]. Qed.
Lemma still_is p : still (is p).
Proof. apply still_bind; [apply still_cur|]. intros t. apply still_ret. Qed.
Lemma still_nexttok : still next.
Proof. apply still_bind; [apply still_next|]. intros [t|]; [apply still_ret|apply still_crash]. Qed.
Lemma still_expect p : still (expect p).
Proof. apply still_bind; [apply still_Cur|]. intros t. apply still_validate. Qed.
Lemma still_expect_next p : still (expect_next p).
Proof. apply still_bind; [apply still_next|]. intros t. apply still_validate. Qed.
Lemma still_until_list {A} fuel t sep (p : prog A) : still p -> still (until_list fuel t sep p).
Proof.
  intros P. apply still_loop. intros y. apply still_bind; [apply still_bind; [exact P|intros; apply still_ret]|]. intros [z|]; [|apply still_ret].
  apply still_bind; [apply still_Cur|]. intros [tk|]; [|apply still_fail]. destruct (t tk); [apply still_ret|].
  destruct sep; [|apply still_ret]. apply still_bind; [apply still_validate|]. intros _.
  apply still_bind; [apply still_next|]. intros _. apply still_ret.
Qed.
Lemma still_pure {A} (f : nat -> heap -> hres A) : (forall c h a h', f c h = HOk a h' -> h_ctxs h' = h_ctxs h /\ h_uses h' = h_uses h) -> still (OnHeap f).
Proof. intros H. apply still_onheap. intros c h a h' E. apply H in E as [-> ->]. split; [reflexivity|]. exists []. rewrite app_nil_r. split; [reflexivity|constructor]. Qed.
Lemma still_uses_item : still parse_uses_item.
Proof.
  unfold parse_uses_item. apply still_bind; [apply still_expect|]. intros t. apply still_bind; [apply still_nexttok|]. intros t2.
  apply still_bind.
  - destruct (kw "IN" t2); [|apply still_ret]. apply still_bind; [apply still_nexttok|]. intros t3. apply still_bind; [|intros; apply still_ret].
    unfold parse_string_factor. destruct (_ || _); [|apply still_failat]. apply still_bind; [apply still_next|]. intros; apply still_ret.
  - intros path. apply still_onheap. intros c h a h' [= <- <-]. cbn. split; [reflexivity|]. eexists. split; [reflexivity|]. constructor; [reflexivity|constructor].
Qed.
Lemma dset_same h m ds h' : dset h m ds = SOk h' \/ (exists i, dset h m ds = SErr h' i) -> h_ctxs h' = h_ctxs h /\ h_uses h' = h_uses h.
Proof. intros H. apply dset_target in H. destruct (target m) as [a|]; [destruct H; auto|now subst]. Qed.
Lemma ctx_set_same h c ds h' : ctx_set h c ds = SOk h' -> h_ctxs h' = h_ctxs h /\ h_uses h' = h_uses h.
Proof.
  intros E. unfold ctx_set in E. destruct (nth_error (h_ctxs h) c) as [o|] eqn:Eo; [|discriminate]. unfold map_set, alloc_decls in E.
  destruct (dset_same _ _ _ _ (or_introl E)) as [X Y]. now split; [rewrite X|rewrite Y].
Qed.
Lemma still_set_uses l : still (set_uses l).
Proof.
  induction l as [|a l IH]; cbn [set_uses]; [apply still_ret|]. apply still_bind; [|intros; exact IH]. apply still_pure.
  intros c h x h'. destruct (nth_error (h_uses h) a); [|discriminate]. destruct (ctx_set _ _ _) eqn:E; try discriminate. intros [= _ <-]. now apply ctx_set_same in E.
Qed.
Section Level.
Context (R : recs).
Lemma still_uses_next : still (parse_uses_next R).
Proof.
  unfold parse_uses_next, parse_uses_clause. apply still_bind; [|intros; apply still_bind; [apply still_next|intros; apply still_ret]].
  apply still_bind; [apply still_expect|]. intros _. apply still_bind; [apply still_next|]. intros _. apply still_bind; [apply still_until_list, still_uses_item|].
  intros l. apply still_bind; [apply still_set_uses|]. intros; apply still_ret.
Qed.
Lemma put_unit_same h u f : h_ctxs (put_unit h u f) = h_ctxs h /\ h_uses (put_unit h u f) = h_uses h.
Proof. unfold put_unit. destruct (nth_error (h_units h) u); auto. Qed.
Lemma still_change u f : still (change_unit u f).
Proof. apply still_pure. intros c h a h' [= <- <-]. apply put_unit_same. Qed.
Lemma still_beginning uc : still (parse_ident_and_intf_uses R uc).
Proof.
  unfold parse_ident_and_intf_uses. apply still_bind.
  - unfold parse_unit_ident. apply still_bind; [apply still_expect|]. intros _. apply still_bind; [apply still_expect_next|]. intros t.
    apply still_bind; [apply still_pure; intros c h a h'; destruct (ctx_path h uc); [intros [= <- <-]; auto|discriminate]|]. intros path.
    apply still_bind; [apply still_pure; intros c h a h' [= <- <-]; auto|]. intros u. apply still_bind; [apply still_nexttok|]. intros t1.
    apply still_bind; [destruct (p_portability t1); [apply still_bind; [apply still_change|intros; apply still_nexttok]|apply still_ret]|]. intros t2.
    apply still_bind; [|intros; apply still_ret]. destruct (sym ";" t2); [apply still_bind; [apply still_next|intros; apply still_ret]|apply still_ret].
  - intros u. apply still_bind; [|intros; apply still_ret]. unfold parse_unit_intf_uses. apply still_bind; [apply still_expect|]. intros _.
    apply still_bind; [apply still_nexttok|]. intros t. apply still_bind; [|intros; apply still_change].
    destruct (kw "USES" t); [apply still_bind; [apply still_uses_next|intros; apply still_ret]|apply still_ret].
Qed.
Lemma still_program_head pc : still (parse_program_head R pc).
Proof.
  unfold parse_program_head. apply still_bind; [apply still_expect|]. intros _. apply still_bind; [apply still_expect_next|]. intros t.
  apply still_bind; [apply still_pure; intros c h a h'; destruct (ctx_path h pc); [intros [= <- <-]; auto|discriminate]|]. intros pa.
  apply still_bind; [apply still_expect_next|]. intros _. apply still_bind; [apply still_next|]. intros _. apply still_bind; [apply still_is|]. intros b.
  apply still_bind; [|intros; apply still_ret]. destruct b; [apply still_bind; [apply still_uses_next|intros; apply still_ret]|apply still_ret].
Qed.
End Level.

(** ** Methods that make no item with a unit *)
Definition tidy {A} (p : prog A) : Prop := forall s a s', anchored s -> run p s = OOk a s' ->
  anchored s' /\ exists l, h_uses (s_heap s') = h_uses (s_heap s) ++ l /\ unitless l.
Lemma tidy_evolves {A} (p : prog A) : evolves p -> tidy p.
Proof.
  intros V s a s' An E. apply V in E; [|exact An]. split; [eapply anchored_evolved; eauto|]. exists []. rewrite app_nil_r. split; [apply (ev_uses _ _ E)|constructor].
Qed.
Lemma tidy_still {A} (p : prog A) : still p -> tidy p.
Proof. intros S s a s' (o & Eo & K) E. destruct (S s a s' E) as (C & H & X). split; [|exact X]. exists o. split; [congruence|exact K]. Qed.
Lemma tidy_bind {A B} (p : prog A) (k : A -> prog B) : tidy p -> (forall a, tidy (k a)) -> tidy (Bind p k).
Proof.
  intros P K s b s' An E. cbn [run] in E. destruct (run p s) as [a s1| | | |] eqn:R; try discriminate.
  destruct (P s a s1 An R) as (An1 & l1 & U1 & N1). destruct (K a s1 b s' An1 E) as (An2 & l2 & U2 & N2). split; [exact An2|].
  exists (l1 ++ l2). rewrite U2, U1, app_assoc. split; [reflexivity|]. now apply Forall_app.
Qed.
Lemma set_all_same m l : forall h h', set_all h m l = Some h' -> h_ctxs h' = h_ctxs h /\ h_uses h' = h_uses h.
Proof.
  induction l as [|ds l IH]; intros h h'; cbn [set_all]; [now intros [= <-]|]. unfold map_set, alloc_decls.
  destruct (dset _ m _) as [h2|h2 i|] eqn:E1; [| |discriminate]; intros E; apply IH in E as [E2 E3].
  - destruct (dset_same _ _ _ _ (or_introl E1)) as [X Y]. split; [rewrite E2, X|rewrite E3, Y]; reflexivity.
  - destruct (dset_same _ _ _ _ (or_intror (ex_intro _ i E1))) as [X Y]. split; [rewrite E2, X|rewrite E3, Y]; reflexivity.
Qed.
Section Level2.
Context (m : nat) (uc u : nat).
Notation R := (recs_at m).
Lemma tidy_intf_body : tidy (parse_unit_intf_body R u).
Proof.
  unfold parse_unit_intf_body. apply tidy_bind; [apply tidy_evolves, evolves_loop; intros; apply ev_intf_step|]. intros l. apply tidy_still, still_pure.
  intros c h a h'. cbv zeta. unfold new_map.
  set (h1 := put_unit h u _). destruct (set_all _ _ _) as [h3|] eqn:E; [|discriminate]. intros [= _ <-]. apply set_all_same in E as [E1 E2].
  cbn [h_ctxs h_uses with_maps] in E1, E2. destruct (put_unit_same h3 u (with_unit_map (DImpl (length (h_maps h1))))) as [-> ->].
  rewrite E1, E2. apply put_unit_same.
Qed.
Lemma tidy_impl_uses : tidy (parse_impl_uses R uc u).
Proof.
  unfold parse_impl_uses. apply tidy_bind; [apply tidy_still, still_expect|]. intros _. apply tidy_bind; [apply tidy_still, still_next|]. intros _.
  apply tidy_bind.
  - intros s a s' (o & Eo & K) E. cbn [run] in E. destruct (ctx_stack (s_heap s) uc) as [[h1 b]|] eqn:ST; [|discriminate]. injection E as <- <-.
    unfold ctx_stack, new_chained, new_map in ST. destruct (nth_error (h_ctxs (s_heap s)) uc) as [ou|] eqn:Eu; [|discriminate]. injection ST as <- <-.
    set (h0 := with_maps _ _). assert (Eu0 : nth_error (h_ctxs h0) uc = Some ou) by exact Eu. split.
    + unfold anchored. cbn [with_heap s_heap s_ctx]. destruct (Nat.eq_dec uc (s_ctx s)) as [->|N].
      * rewrite (ctx_put_map_ctx _ _ ou _ Eu0). rewrite Eo in Eu. injection Eu as <-. eexists. split; [reflexivity|exact K].
      * rewrite ctx_put_map_other by auto. exists o. auto.
    + exists []. rewrite app_nil_r. split; [|constructor]. cbn [with_heap s_heap]. unfold ctx_put_map. rewrite Eu0. reflexivity.
  - intros _. apply tidy_bind; [apply tidy_still, still_is|]. intros b. apply tidy_bind.
    + destruct b; [apply tidy_bind; [apply tidy_still, still_uses_next|intros; apply tidy_still, still_ret]|apply tidy_still, still_ret].
    + intros l. apply tidy_bind; [apply tidy_still, still_change|intros; apply tidy_still, still_ret].
Qed.
Lemma tidy_impl_body : tidy (parse_impl_body R u).
Proof.
  pose proof (recs_at_evolve m) as RE. unfold parse_impl_body. apply tidy_bind; [apply tidy_evolves, ev_parse_decl_sections, RE|]. intros ds.
  apply tidy_bind; [apply tidy_still, still_change|]. intros _. apply tidy_bind; [apply tidy_evolves, ev_parse_exports_stmts, RE|]. intros ex.
  apply tidy_bind; [apply tidy_still, still_change|]. intros _. apply tidy_bind; [apply tidy_still, still_is|]. intros b.
  destruct b; [apply tidy_bind; [apply tidy_still, still_next|intros; apply tidy_still, still_ret]|apply tidy_still, still_ret].
Qed.
Lemma tidy_unit_end : tidy (parse_unit_end R u).
Proof.
  pose proof (recs_at_evolve m) as RE. unfold parse_unit_end. apply tidy_bind; [apply tidy_still, still_is|]. intros b. apply tidy_bind.
  - destruct b; [|apply tidy_still, still_ret]. apply tidy_bind; [|intros; apply tidy_still, still_change]. unfold parse_init_section.
    apply tidy_bind; [apply tidy_still, still_expect|]. intros _. apply tidy_bind; [apply tidy_still, still_next|]. intros _.
    apply tidy_bind; [apply tidy_evolves, ev_parse_stmt_list, RE|]. intros l1. apply tidy_bind; [apply tidy_still, still_is|]. intros b.
    apply tidy_bind; [|intros; apply tidy_still, still_ret]. destruct b; [|apply tidy_still, still_ret]. apply tidy_bind; [apply tidy_still, still_next|]. intros _.
    apply tidy_bind; [apply tidy_evolves, ev_parse_stmt_list, RE|intros; apply tidy_still, still_ret].
  - intros _. apply tidy_bind; [apply tidy_still, still_expect|]. intros _. apply tidy_bind; [apply tidy_still, still_expect_next|]. intros; apply tidy_still, still_ret.
Qed.
End Level2.

(** ** Items and units *)
Section Links.
Context (at_ : list nat).
Definition fits (h : heap) : Prop := forall a o v, nth_error (h_uses h) a = Some o -> u_unit o = Some v ->
  find_name (unit_name h) at_ (i_name (u_ident o)) = Some v.
Definition tied (h : heap) (a : nat) (i : gostring * option gostring) : Prop := exists o, nth_error (h_uses h) a = Some o /\
  i_name (u_ident o) = fst i /\ u_path o = snd i /\ u_unit o = find_name (unit_name h) at_ (fst i).
Definition clause_tied (h : heap) (us : option (list nat)) (l : option uses_source) : Prop :=
  match us, l with
  | None, None => True
  | Some us, Some l => Forall2 (tied h) us l
  | _, _ => False
  end.
Definition at_there (h : heap) : Prop := Forall (fun v => v < length (h_units h)) at_.
Lemma find_ext {A} (f g : A -> gostring) l n : (forall x, In x l -> f x = g x) -> find_name f l n = find_name g l n.
Proof.
  intros H. induction l as [|x l IH]; [reflexivity|]. cbn [find_name]. rewrite (H x) by (now left). rewrite IH; [reflexivity|]. intros y J. apply H. now right.
Qed.
Lemma find_same {A} (f : A -> gostring) l n n' : same_name n n' -> find_name f l n = find_name f l n'.
Proof. intros S. induction l as [|x l IH]; [reflexivity|]. cbn [find_name]. unfold same_name in S. now rewrite S, IH. Qed.
Lemma frame_name t cs us h h' v : frame t cs us h h' -> v < length (h_units h) -> unit_name h' v = unit_name h v.
Proof.
  intros F L. unfold unit_name. destruct (nth_error (h_units h) v) as [o|] eqn:E; [|apply nth_error_None in E; lia].
  destruct (fr_units _ _ _ _ _ F v o E) as (o' & -> & -> & _). reflexivity.
Qed.
Lemma frame_find t cs us h h' n : frame t cs us h h' -> at_there h -> find_name (unit_name h') at_ n = find_name (unit_name h) at_ n.
Proof. intros F T. apply find_ext. intros v J. unfold at_there in T. rewrite Forall_forall in T. eapply frame_name; [exact F|]. now apply T. Qed.
Lemma at_frame t cs us h h' : frame t cs us h h' -> at_there h -> at_there h'.
Proof.
  intros F. apply Forall_impl. intros v L. destruct (nth_error (h_units h) v) as [o|] eqn:E; [|apply nth_error_None in E; lia].
  destruct (fr_units _ _ _ _ _ F v o E) as (o' & E' & _). eapply nth_lt; eauto.
Qed.
Lemma tied_frame t cs us h h' a i : frame t cs us h h' -> at_there h -> fits h' -> tied h a i -> tied h' a i.
Proof.
  intros F T Ft (o & Eo & N & P & L). destruct (fr_uses _ _ _ _ _ F a o Eo) as (o' & Eo' & N' & P' & L'). exists o'. split; [exact Eo'|].
  split; [congruence|]. split; [congruence|]. rewrite (frame_find _ _ _ _ _ _ F T). destruct L' as [L'|L'].
  - rewrite <- L, L'. destruct (u_unit o') as [v|] eqn:E; [|reflexivity]. exfalso. apply (Ft a o' v Eo') in E. rewrite N', N, (frame_find _ _ _ _ _ _ F T), <- L in E. congruence.
  - congruence.
Qed.
Lemma clause_tied_frame t cs us h h' c l : frame t cs us h h' -> at_there h -> fits h' -> clause_tied h c l -> clause_tied h' c l.
Proof. intros F T Ft. destruct c, l; cbn; auto. apply Forall2_imp. intros. eapply tied_frame; eauto. Qed.
Lemma fits_more t cs us h h' l : frame t cs us h h' -> at_there h -> h_uses h' = h_uses h ++ l -> unitless l -> fits h -> fits h'.
Proof.
  intros F T E N Ft a o v Ea Eu. rewrite (frame_find _ _ _ _ _ _ F T). rewrite E in Ea. destruct (Nat.lt_ge_cases a (length (h_uses h))) as [L|L].
  - rewrite nth_error_app1 in Ea by exact L. eapply Ft; eauto.
  - rewrite nth_error_app2 in Ea by exact L. apply nth_error_In in Ea. unfold unitless in N. rewrite Forall_forall in N. apply N in Ea. congruence.
Qed.
Lemma uses_frame h v : (forall a o, nth_error (h_uses h) a = Some o -> exists o', nth_error v a = Some o' /\
    u_ident o' = u_ident o /\ u_path o' = u_path o /\ (u_unit o = None \/ u_unit o' = u_unit o)) -> frame nobody_at nobody_at nobody_at h (with_uses v h).
Proof.
  intros H. constructor; cbn; auto; eauto.
  - exists []. now rewrite app_nil_r.
  - intros a m E. exists m. split; [exact E|]. split; [auto|apply keeps_refl].
Qed.
Lemma assign_links us : forall h, fits h -> exists v, assign_units_loop h at_ us = with_uses v h /\
  fits (with_uses v h) /\ frame nobody_at nobody_at nobody_at h (with_uses v h) /\ length v = length (h_uses h) /\
  (forall a o, In a us -> nth_error v a = Some o -> u_unit o = find_name (unit_name h) at_ (i_name (u_ident o))).
Proof.
  induction us as [|a us IH]; intros h Ft; cbn [assign_units_loop].
  - exists (h_uses h). assert (E : with_uses (h_uses h) h = h) by (now destruct h). rewrite E. split; [reflexivity|]. split; [exact Ft|]. split; [apply frame_refl|]. split; [reflexivity|]. intros ? ? [].
  - set (h1 := match find_name (unit_name h) at_ (uses_name h a) with Some u => uses_put_unit h a u | None => h end).
    assert (exists v1, h1 = with_uses v1 h /\ length v1 = length (h_uses h) /\ fits (with_uses v1 h) /\ frame nobody_at nobody_at nobody_at h (with_uses v1 h) /\
      forall o, nth_error v1 a = Some o -> u_unit o = find_name (unit_name h) at_ (i_name (u_ident o))) as (v1 & E1 & L1 & Ft1 & F1 & H1).
    { unfold h1, uses_name, uses_put_unit. destruct (nth_error (h_uses h) a) as [o|] eqn:Eo.
      - destruct (find_name (unit_name h) at_ (i_name (u_ident o))) as [u|] eqn:Ef.
        + set (o1 := mkUses (u_ident o) (u_path o) (Some u)). exists (set_nth a o1 (h_uses h)). split; [reflexivity|]. split; [apply set_nth_length|].
          assert (La : a < length (h_uses h)) by (eapply nth_lt; eauto). split; [|split].
          * intros b ob v Eb Ub. cbn [h_uses with_uses] in Eb. change (unit_name (with_uses _ h)) with (unit_name h). destruct (Nat.eq_dec a b) as [<-|Nb].
            -- rewrite nth_set_nth_eq in Eb by exact La. injection Eb as <-. cbn in *. congruence.
            -- rewrite nth_set_nth_neq in Eb by auto. eapply Ft; eauto.
          * apply uses_frame. intros b ob Eb. destruct (Nat.eq_dec a b) as [<-|Nb].
            -- rewrite nth_set_nth_eq by exact La. exists o1. rewrite Eo in Eb. injection Eb as <-. split; [reflexivity|]. split; [reflexivity|]. split; [reflexivity|].
               destruct (u_unit o) as [v|] eqn:Uo; [right|now left]. apply (Ft a o v Eo) in Uo. cbn. congruence.
            -- rewrite nth_set_nth_neq by auto. exists ob. auto 10.
          * intros o' E'. rewrite nth_set_nth_eq in E' by exact La. injection E' as <-. cbn. now rewrite Ef.
        + exists (h_uses h). assert (E : with_uses (h_uses h) h = h) by (now destruct h). rewrite E. split; [reflexivity|]. split; [reflexivity|]. split; [exact Ft|]. split; [apply frame_refl|].
          intros o' E'. rewrite Eo in E'. injection E' as <-. rewrite Ef. destruct (u_unit o) as [v|] eqn:Uo; [|reflexivity]. apply (Ft a o v Eo) in Uo. congruence.
      - exists (h_uses h). assert (E : with_uses (h_uses h) h = h) by (now destruct h). rewrite E. split; [destruct (find_name (unit_name h) at_ []); reflexivity|]. split; [reflexivity|]. split; [exact Ft|]. split; [apply frame_refl|]. congruence. }
    rewrite E1. destruct (IH (with_uses v1 h) Ft1) as (v & E & Ft2 & F2 & L2 & H2). exists v. rewrite E.
    assert (Ev : with_uses v (with_uses v1 h) = with_uses v h) by reflexivity. rewrite Ev in Ft2, F2 |- *. split; [reflexivity|]. split; [exact Ft2|].
    split; [eapply frame_trans; [exact F1|exact F2|auto|auto|auto]|]. split; [cbn in L2; lia|].
    intros b o [<-|J] Eb; [|now apply (H2 b)]. assert (Lb : a < length v1) by (apply nth_lt in Eb; cbn in L2; lia).
    destruct (nth_error v1 a) as [o1|] eqn:Eo1; [|apply nth_error_None in Eo1; lia]. pose proof (H1 o1 eq_refl) as X.
    destruct (fr_uses _ _ _ _ _ F2 a o1 Eo1) as (o2 & Eo2 & N2 & P2 & [U2|U2]); cbn [h_uses with_uses] in Eo2; rewrite Eb in Eo2; injection Eo2 as <-.
    + destruct (u_unit o) as [w|] eqn:Uw; [|congruence]. apply (Ft2 a o w Eb) in Uw. now rewrite <- Uw.
    + congruence.
Qed.
(** The items say [l]; nothing is said of their units. *)
Definition listed (h : heap) (us : list nat) (l : uses_source) : Prop :=
  Forall2 (fun a i => exists o, nth_error (h_uses h) a = Some o /\ i_name (u_ident o) = fst i /\ u_path o = snd i) us l.
Definition clause_listed (h : heap) (us : option (list nat)) (l : option uses_source) : Prop :=
  match us, l with
  | None, None => True
  | Some us, Some l => listed h us l
  | _, _ => False
  end.
Lemma says_listed h us l : clause_says h us l -> clause_listed h us l.
Proof. destruct us, l; cbn; auto. apply Forall2_imp. intros a i (o & Eo & N & P & _). eauto. Qed.
Lemma listed_frame t cs us h h' c l : frame t cs us h h' -> clause_listed h c l -> clause_listed h' c l.
Proof.
  intros F. destruct c, l; cbn; auto. apply Forall2_imp. intros a i (o & Eo & N & P). destruct (fr_uses _ _ _ _ _ F a o Eo) as (o' & Eo' & N' & P' & _).
  exists o'. split; [exact Eo'|]. split; congruence.
Qed.
Lemma listed_tied h v us l : (forall a o, In a us -> nth_error v a = Some o -> u_unit o = find_name (unit_name h) at_ (i_name (u_ident o))) ->
  frame nobody_at nobody_at nobody_at h (with_uses v h) -> listed h us l -> Forall2 (tied (with_uses v h)) us l.
Proof.
  intros H F. induction 1 as [|a i us l (o & Eo & N & P) S IH]; constructor.
  - destruct (fr_uses _ _ _ _ _ F a o Eo) as (o' & Eo' & N' & P' & _). cbn [h_uses with_uses] in Eo'. exists o'. split; [exact Eo'|]. split; [congruence|]. split; [congruence|].
    rewrite (H a o' (or_introl eq_refl) Eo'). change (unit_name (with_uses v h)) with (unit_name h). congruence.
  - apply IH. intros b ob J. apply H. now right.
Qed.
Lemma assign_clause us l h : fits h -> clause_listed h us l -> exists v, assign_units_loop h at_ (or_nil us) = with_uses v h /\
  fits (with_uses v h) /\ frame nobody_at nobody_at nobody_at h (with_uses v h) /\ clause_tied (with_uses v h) us l.
Proof.
  intros Ft Li. destruct (assign_links (or_nil us) h Ft) as (v & E & Ft' & F & _ & H). exists v. split; [exact E|]. split; [exact Ft'|]. split; [exact F|].
  destruct us as [us|], l as [l|]; cbn in *; auto. now apply listed_tied.
Qed.

(** ** The units that clauses name *)
Context (all : list unit_source).
Definition called (h : heap) : Prop := Forall2 (fun v u => unit_name h v = us_name u) at_ all.
Lemma called_there h : Forall (fun u => us_name u <> []) all -> called h -> at_there h.
Proof.
  intros N C. unfold called, at_there in *. induction C as [|v u l1 l2 E C IH]; constructor; inversion N; subst; auto.
  unfold unit_name in E. destruct (nth_error (h_units h) v) eqn:Ev; [eapply nth_lt; eauto|congruence].
Qed.
Lemma called_frame t cs us h h' : frame t cs us h h' -> at_there h -> called h -> called h'.
Proof.
  intros F T C. unfold called, at_there in *. induction C as [|v u l1 l2 E C IH]; constructor; inversion T; subst; auto.
  now rewrite (frame_name _ _ _ _ _ v F).
Qed.
Lemma find_pair h n : called h ->
  match find_name (unit_name h) at_ n, unit_named all n with
  | Some v, Some u => In (v, u) (combine at_ all) /\ same_name n (us_name u)
  | None, None => True
  | _, _ => False
  end.
Proof.
  unfold unit_named, named. induction 1 as [|v u l1 l2 E C IH]; [exact Logic.I|]. cbn [find_name find combine]. rewrite E.
  destruct (list_eq_dec _ _ _) as [e|e].
  - replace (runes_equal (to_lower (us_name u)) (to_lower n)) with true by (symmetry; apply runes_equal_eq; congruence). split; [now left|exact e].
  - destruct (runes_equal (to_lower (us_name u)) (to_lower n)) eqn:Er; [apply runes_equal_eq in Er; congruence|].
    destruct (find_name _ l1 n), (find _ l2); auto. destruct IH. split; [now right|auto].
Qed.
Definition ready (Q : dmap -> Prop) (h : heap) (v : nat) (u : unit_source) : Prop :=
  exists o, nth_error (h_units h) v = Some o /\ gives h (un_map o) u /\ Q (un_map o).
Lemma compact_cons {A} (x : option A) l : compact (x :: l) = match x with Some y => y :: compact l | None => compact l end.
Proof.
  assert (X : forall l (r : list A), compact_acc l r = r ++ compact_acc l []).
  { induction l0 as [|[y|] l0 IH]; intros r; cbn [compact_acc]; [now rewrite app_nil_r| |apply IH]. rewrite IH, (IH ([] ++ [y])). now rewrite app_assoc. }
  unfold compact. destruct x as [y|]; cbn [compact_acc]; [|reflexivity]. rewrite X. reflexivity.
Qed.
(** The units that the clause [l] names are ready. *)
Definition all_ready (Q : dmap -> Prop) (h : heap) (l : option uses_source) : Prop :=
  forall v u n, In (v, u) (combine at_ all) -> In n (clause_names l) -> same_name n (us_name u) -> ready Q h v u.
Lemma used_maps Q h us l : called h -> clause_tied h us l -> all_ready Q h l ->
  Forall2 (fun m u => gives h m u /\ Q m) (units_maps h (compact (uses_units h (or_nil us)))) (used all l).
Proof.
  intros C. destruct us as [us|], l as [l|]; cbn [clause_tied or_nil]; [|intros []|intros []|constructor].
  unfold all_ready, used, named_units. cbn [clause_names]. intros T. induction T as [|a i us l (o & Eo & N & P & L) T IH]; intros Rd; [constructor|].
  unfold uses_units. cbn [map]. rewrite Eo, compact_cons, L. cbn [flat_map]. rewrite map_app. fold (uses_units h us).
  assert (IH' : Forall2 (fun m u => gives h m u /\ Q m) (units_maps h (compact (uses_units h us)))
    (map snd (flat_map (fun n : gostring => match unit_named all n with Some u => [(n, u)] | None => [] end) (map fst l)))).
  { apply IH. intros v u n J Jn. apply (Rd v u n J). now right. }
  pose proof (find_pair h (fst i) C) as X. destruct (find_name _ _ _) as [v|], (unit_named all (fst i)) as [u|]; try contradiction; [|exact IH'].
  destruct X as [J S]. destruct (Rd v u (fst i) J (or_introl eq_refl) S) as (uo & Eu & G). cbn [units_maps map app snd]. constructor; [now rewrite Eu|exact IH'].
Qed.
Lemma qualified_items Q text sc s ws us l : called (s_heap s) -> clause_tied (s_heap s) us l -> clause_names_items s us l ->
  all_ready Q (s_heap s) l -> in_scope text sc s ws -> in_scope text (qualified (named_units all l) sc) s ws.
Proof.
  intros C T Nm Rd I. apply in_scope_qualified; [exact I|]. intros n u x m J S D. unfold named_units in J.
  destruct us as [us|], l as [l|]; cbn [clause_names clause_tied clause_names_items] in *; [|destruct T|destruct T|destruct J].
  apply in_flat_map in J as (n' & Jn & J). destruct (unit_named all n') as [u'|] eqn:En; [|destruct J]. destruct J as [[= -> ->]|[]].
  pose proof Jn as Jn'. apply in_map_iff in Jn as (i & Ei & Ji).
  assert (exists a, In (a, i) (combine us l) /\ tied (s_heap s) a i) as (a & Ja & (o & Eo & N & P & L)).
  { clear -T Ji. induction T as [|a j us l H T IH]; [destruct Ji|]. destruct Ji as [->|Ji]; [exists a; split; [now left|exact H]|].
    destruct (IH Ji) as (b & Jb & Hb). exists b. split; [now right|exact Hb]. }
  pose proof (find_pair (s_heap s) n C) as X. rewrite En in X. rewrite Ei in L. destruct (find_name (unit_name (s_heap s)) at_ n) as [v|] eqn:Ef; [|contradiction].
  destruct X as [Jv Sv]. destruct (Rd v u n Jv Jn' Sv) as (uo & Eu & G & _).
  eapply (names_items_member _ _ us l a i x m v uo); [exact Nm|exact Ja|now rewrite Ei|exists o; auto|exact Eu|eapply gives_answer; eauto].
Qed.
End Links.
End WithUnicode.
