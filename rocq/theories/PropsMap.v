(** Properties of declaration maps, contexts and finding by name.  Definitions used in
    the statements are in MapSpec (and the model in Ast, Heap); proofs in MapMain. *)
From Coq Require Import String List NArith Bool Arith Lia List.
From Verif Require Import Runes UnicodeFacts Token Ast Ext ExtSpec Heap MapSpec MapMain.
Import ListNotations.

(** The examples use the Latin-1 tables. *)
#[local] Existing Instance latin1 | 100.
#[local] Existing Instance latin1_ok | 100.

Local Definition at_ (n : nat) : option (position * position) := Some (mkPos 1 n n, mkPos 1 (S n) (S n)).
Local Definition id (s : string) (n : nat) : ident := mkIdent (rs s) (at_ n).
(** Three declarations, x, y and z, and one empty map. *)
Local Definition three : heap :=
  with_decls [mkDecl (id "x" 1) NVar; mkDecl (id "Y" 2) NVar; mkDecl (id "z" 3) NVar] (with_maps [[]] heap0).
Local Notation x := (id "x" 1, Ptr 0).
Local Notation y := (id "Y" 2, Ptr 1).
Local Notation z := (id "z" 3, Ptr 2).
Local Ltac calls := vm_compute; reflexivity.

(** C17. After any history of Set and Overwrite on a fresh map, Get tells the newest binding
    of the name up to letter case, and Set answered as the history demands. *)
Theorem map_history {U : Unicode} {UOK : UnicodeOk U} :
  forall h a cs h' rs,
    nth_error (h_maps h) a = Some [] ->
    do_calls h (DImpl a) cs = Some (h', rs) ->
    rs = snd (log_calls [] cs) /\
    forall name, dget h' (DImpl a) name = told (latest (fst (log_calls [] cs)) name).
Proof. exact MapMain.map_history. Qed.
Print Assumptions map_history.

Example map_history_case :
  let cs := [CSet [x; y]; CSet [z; x]; COverwrite (rs "X") (Some (Ptr 2))] in
  exists h', nth_error (h_maps three) 0 = Some [] /\ do_calls three (DImpl 0) cs = Some (h', [AOk; ARefused; AOk]) /\
    dget h' (DImpl 0) (rs "x") = LFound (Ptr 2) /\ dget h' (DImpl 0) (rs "y") = LFound (Ptr 1) /\
    dget h' (DImpl 0) (rs "Z") = LFound (Ptr 2) /\ dget h' (DImpl 0) (rs "w") = LNil.
Proof. eexists. repeat split; calls. Qed.

(** C17. Calls that mention only other names do not change the answer for a name, on any map. *)
Theorem calls_leave_other_names {U : Unicode} {UOK : UnicodeOk U} :
  forall h m cs h' rs name,
    do_calls h m cs = Some (h', rs) ->
    (forall c n, In c cs -> In n (mentions c) -> ~ same_name n name) ->
    dget h' m name = dget h m name.
Proof. exact MapMain.calls_leave_other_names. Qed.
Print Assumptions calls_leave_other_names.

Example calls_leave_other_names_case : exists h',
  do_calls three (DImpl 0) [CSet [x]; COverwrite (rs "Z") None] = Some (h', [AOk; AOk]) /\
  ~ same_name (rs "x") (rs "y") /\ ~ same_name (rs "Z") (rs "y").
Proof. eexists. split; [calls|]. split; vm_compute; discriminate. Qed.

(** C17. What Overwrite bound is found, in any letter case, through a map of any build. *)
Theorem overwrite_then_get {U : Unicode} {UOK : UnicodeOk U} :
  forall h m a name n d h',
    target m = Some a ->
    doverwrite h m name (Some d) = Some h' -> same_name n name ->
    dget h' m n = LFound d.
Proof. exact MapMain.overwrite_then_get. Qed.
Print Assumptions overwrite_then_get.

Example overwrite_then_get_case : exists h',
  doverwrite three (DComposite [DChained DEmbedded 0; DEmbedded]) (rs "Foo") (Some (Ptr 1)) = Some h' /\
  same_name (rs "fOO") (rs "Foo") /\ dget h' (DComposite [DChained DEmbedded 0; DEmbedded]) (rs "FOO") = LFound (Ptr 1).
Proof. eexists. repeat split; calls. Qed.

(** C17. Two spellings equal in lower case and in upper case are the same name to every map. *)
Theorem get_ignores_case {U : Unicode} {UOK : UnicodeOk U} :
  forall h m n1 n2,
    to_lower n1 = to_lower n2 -> to_upper n1 = to_upper n2 -> dget h m n1 = dget h m n2.
Proof. exact MapMain.get_ignores_case. Qed.
Print Assumptions get_ignores_case.

(** Equal in lower case is not enough for the built-in types, which are kept in upper
    case: with Go's tables U+0130 has the lower case i but is its own upper case. *)
Definition dotted : Unicode := {|
  u_letter := @u_letter latin1; u_space := @u_space latin1; u_upper := @u_upper latin1;
  u_lower := fun r => if (r =? 304)%N then 105%N else @u_lower latin1 r |}.
Lemma dotted_ok : UnicodeOk dotted.
Proof.
  destruct latin1_ok. split; auto. intros r H. cbn [u_lower dotted].
  replace (r =? 304)%N with false by (symmetry; apply N.eqb_neq; lia). auto.
Qed.
Theorem get_ignores_case_refuted : exists (U : Unicode) n1 n2, UnicodeOk U /\
  to_lower n1 = to_lower n2 /\ dget heap0 DEmbedded n1 <> LNil /\ dget heap0 DEmbedded n2 = LNil.
Proof.
  exists dotted, (rs "integer"), (304%N :: rs "nteger"). split; [exact dotted_ok|].
  split; [reflexivity|]. split; [vm_compute; discriminate|reflexivity].
Qed.
Print Assumptions get_ignores_case_refuted.

(** C18. Set with a name that is taken is refused and everything bound before stays bound as it
    was.  (Declarations are located, as those of the parser are: the error message
    prints both places.) *)
Theorem set_refuses_redeclaration {U : Unicode} {UOK : UnicodeOk U} :
  forall h m a mo ds i d old,
    target m = Some a -> nth_error (h_maps h) a = Some mo ->
    In (i, d) ds -> dget h (DImpl a) (i_name i) = LFound old ->
    (forall n, mget (to_lower n) mo <> Some None) ->
    (forall n e, dget h (DImpl a) n = LFound e -> located h e) ->
    (forall j e, In (j, e) ds -> i_loc j <> None /\ located h e) ->
    exists h' j, dset h m ds = SErr h' j /\ In j (map fst ds) /\
      forall n e, dget h (DImpl a) n = LFound e -> dget h' (DImpl a) n = LFound e.
Proof. exact MapMain.set_refuses_redeclaration. Qed.
Print Assumptions set_refuses_redeclaration.

Example set_refuses_redeclaration_case : exists h' h'' j,
  dset three (DImpl 0) [x; y] = SOk h' /\ dset h' (DImpl 0) [z; (id "y" 5, Ptr 1)] = SErr h'' j /\
  j = id "y" 5 /\ dget h' (DImpl 0) (rs "y") = LFound (Ptr 1).
Proof. eexists _, _, _. repeat split; calls. Qed.

(** C18. Set with new names, distinct up to letter case, binds them all and nothing else. *)
Theorem set_binds_new_names {U : Unicode} {UOK : UnicodeOk U} :
  forall h m a mo ds,
    target m = Some a -> nth_error (h_maps h) a = Some mo ->
    (forall i d, In (i, d) ds -> mget (to_lower (i_name i)) mo = None) ->
    NoDup (map (fun p => to_lower (i_name (fst p))) ds) ->
    exists h', dset h m ds = SOk h' /\
      (forall i d n, In (i, d) ds -> same_name n (i_name i) -> dget h' m n = LFound d) /\
      (forall n, (forall i d, In (i, d) ds -> ~ same_name (i_name i) n) -> dget h' m n = dget h m n).
Proof. exact MapMain.set_binds_new_names. Qed.
Print Assumptions set_binds_new_names.

Example set_binds_new_names_case :
  NoDup (map (fun p => to_lower (i_name (fst p))) [x; y; z]) /\
  forall i d, In (i, d) [x; y; z] -> mget (to_lower (i_name i)) [] = None.
Proof.
  split; [|intros; reflexivity].
  repeat (constructor; [cbn; intros H; repeat destruct H as [H|H]; try discriminate H; contradiction|]). constructor.
Qed.

(** A refused Set may have bound some of its names. *)
Theorem set_atomic_refuted : exists h m ds h' i n d,
  dset h m ds = SErr h' i /\ dget h m n = LNil /\ dget h' m n = LFound d.
Proof. exists three, (DImpl 0), [x; y; x]. eexists _, _, (rs "y"), _. repeat split; calls. Qed.
Print Assumptions set_atomic_refuted.
(** Overwriting with nil makes a later Set of that name panic. *)
Theorem set_after_overwrite_nil_refuted : exists h m n h' ds,
  doverwrite h m n None = Some h' /\ dget h' m n = LNil /\ dset h' m ds = SPanic /\ Forall (fun p => located h' (snd p)) ds.
Proof.
  exists three, (DImpl 0), (rs "x"). eexists _, [x]. repeat split; try calls.
  constructor; [|constructor]. exists (mkDecl (id "x" 1) NVar). split; [reflexivity|discriminate].
Qed.
Print Assumptions set_after_overwrite_nil_refuted.

(** C19. A scope on top of any map: it answers first, the outer map answers for the rest, and
    no history of calls on it changes any answer of the outer map. *)
Theorem inner_scope_shadows {U : Unicode} {UOK : UnicodeOk U} :
  forall h p h1 m cs h2 rs,
    allocated h p -> new_chained h p = (h1, m) -> do_calls h1 m cs = Some (h2, rs) ->
    rs = snd (log_calls [] cs) /\
    forall name,
      dget h2 p name = dget h p name /\
      dget h2 m name = first_found [scope_says cs name; dget h p name].
Proof. exact MapMain.inner_scope_shadows. Qed.
Print Assumptions inner_scope_shadows.

Example inner_scope_shadows_case : exists h0 h1 m h2,
  dset three (DImpl 0) [x; y] = SOk h0 /\ allocated h0 (DImpl 0) /\ new_chained h0 (DImpl 0) = (h1, m) /\
  do_calls h1 m [CSet [(id "Y" 7, Ptr 2)]; COverwrite (rs "w") (Some (Ptr 0))] = Some (h2, [AOk; AOk]) /\
  dget h2 m (rs "y") = LFound (Ptr 2) /\ dget h2 (DImpl 0) (rs "y") = LFound (Ptr 1) /\
  dget h2 m (rs "x") = LFound (Ptr 0) /\ dget h2 (DImpl 0) (rs "w") = LNil.
Proof. eexists _, _, _, _. repeat split; try calls. repeat constructor. Qed.

(** C19. In a fresh inner scope any distinct names can be declared, whatever the outer one has. *)
Theorem inner_scope_may_redeclare {U : Unicode} {UOK : UnicodeOk U} :
  forall h p h1 m ds,
    new_chained h p = (h1, m) -> NoDup (map (fun q => to_lower (i_name (fst q))) ds) ->
    exists h2, dset h1 m ds = SOk h2 /\
      forall i d n, In (i, d) ds -> same_name n (i_name i) -> dget h2 m n = LFound d.
Proof. exact MapMain.inner_scope_may_redeclare. Qed.
Print Assumptions inner_scope_may_redeclare.

(** C20. A composite finds a name in the first of its maps that knows it. *)
Theorem composite_finds_first {U : Unicode} {UOK : UnicodeOk U} :
  forall h ms name d,
    dget h (DComposite ms) name = LFound d <->
    exists pre m post, ms = pre ++ m :: post /\
      Forall (fun m' => dget h m' name = LNil) pre /\ dget h m name = LFound d.
Proof. exact MapMain.composite_finds_first. Qed.
Print Assumptions composite_finds_first.

Local Definition two_maps : heap :=
  with_maps [[(rs "a", Some (Ptr 0))]; [(rs "a", Some (Ptr 1)); (rs "b", Some (Ptr 2))]] three.
Example composite_finds_first_case :
  dget two_maps (DComposite [DImpl 0; DImpl 1]) (rs "A") = LFound (Ptr 0) /\
  dget two_maps (DComposite [DImpl 1; DImpl 0]) (rs "A") = LFound (Ptr 1) /\
  dget two_maps (DComposite [DImpl 0; DImpl 1]) (rs "b") = LFound (Ptr 2).
Proof. repeat split; calls. Qed.

(** C20. It finds none iff none of its maps does. *)
Theorem composite_finds_none {U : Unicode} {UOK : UnicodeOk U} :
  forall h ms name,
    dget h (DComposite ms) name = LNil <-> Forall (fun m => dget h m name = LNil) ms.
Proof. exact MapMain.composite_finds_none. Qed.
Print Assumptions composite_finds_none.

(** C20. Set and Overwrite on a composite act on its first map and change no map that does not
    read the object written. *)
Theorem composite_writes_first {U : Unicode} {UOK : UnicodeOk U} :
  forall h m ms cs h' rs,
    do_calls h (DComposite (m :: ms)) cs = Some (h', rs) ->
    do_calls h m cs = Some (h', rs) /\
    forall m' name, (forall a, target m = Some a -> ~ In a (addrs m')) -> dget h' m' name = dget h m' name.
Proof. exact MapMain.composite_writes_first. Qed.
Print Assumptions composite_writes_first.

Example composite_writes_first_case : exists h',
  do_calls two_maps (DComposite [DImpl 0; DImpl 1]) [COverwrite (rs "b") (Some (Ptr 0))] = Some (h', [AOk]) /\
  dget h' (DImpl 0) (rs "b") = LFound (Ptr 0) /\ dget h' (DImpl 1) (rs "b") = LFound (Ptr 2) /\
  (forall a, target (DImpl 0) = Some a -> ~ In a (addrs (DImpl 1))).
Proof. eexists. repeat split; try calls. intros a [= <-] [H|[]]. discriminate. Qed.

(** C21. Every built-in type is found in any letter case, with its kind. *)
Theorem builtins_found_any_case {U : Unicode} {UOK : UnicodeOk U} :
  forall h k n name,
    builtin k n -> to_upper name = to_upper (rs n) ->
    exists d, dget h DEmbedded name = LFound d /\ deref h d = Some (embedded_decl k (rs n)).
Proof. exact MapMain.builtins_found_any_case. Qed.
Print Assumptions builtins_found_any_case.

Example builtins_found_any_case_case :
  builtin EtkOrdIdent "LongWord" /\ to_upper (rs "longWORD") = to_upper (rs "LongWord").
Proof. split; [cbn; auto 20|reflexivity]. Qed.

(** C21. Nothing else is found in the table of built-in types. *)
Theorem builtins_only {U : Unicode} {UOK : UnicodeOk U} :
  forall h name d,
    dget h DEmbedded name = LFound d ->
    exists k n, builtin k n /\ to_upper name = to_upper (rs n) /\ deref h d = Some (embedded_decl k (rs n)).
Proof. exact MapMain.builtins_only. Qed.
Print Assumptions builtins_only.

(** C21. In every context that the context functions can produce, a built-in name is always
    found, and is the built-in type unless one of the maps looked in binds the name. *)
Theorem builtins_always_visible {U : Unicode} {UOK : UnicodeOk U} :
  forall h bs c k n name,
    api h bs -> c < length (h_ctxs h) -> builtin k n -> to_upper name = to_upper (rs n) ->
    ctx_get h c name <> LNil /\
    ((forall m, looks_in h c m -> solid m /\ forall a, In a (addrs m) -> impl_get h a name = LNil) ->
     exists d, ctx_get h c name = LFound d /\ deref h d = Some (embedded_decl k (rs n))).
Proof. exact MapMain.builtins_always_visible. Qed.
Print Assumptions builtins_always_visible.

Example builtins_always_visible_case : exists h c,
  api h [(c, DChained DEmbedded 0)] /\ ctx_get h c (rs "INTEGER") = LFound (Emb 7) /\
  ctx_get h c (rs "byte") = LFound (Ptr 0).
Proof.
  set (h1 := fst (new_program_context heap0 (rs "a.dpr"))).
  destruct (ctx_stack h1 0) as [[h2 b]|] eqn:S; [|discriminate].
  destruct (ctx_set h2 0 [mkDecl (id "Byte" 1) NVar]) as [h3|h3 i|] eqn:C;
    [|vm_compute in S; injection S as <- <-; discriminate..].
  exists h3, 0. split.
  - eapply api_set_ok; [|exact C]. vm_compute in S. injection S as S1 S2. subst b.
    eapply api_stack with (h := h1); [apply api_program, api_start|]. rewrite <- S1. reflexivity.
  - vm_compute in S. injection S as <- <-. vm_compute in C. injection C as <-. split; calls.
Qed.
(** Not so for the clone of a stackable context: it has lost its parent. *)
Theorem clone_of_stackable_refuted : exists h bs c h' c',
  api h bs /\ ctx_clone h c = Some (h', c') /\ ctx_get h' c (rs "Integer") = LFound (Emb 7) /\
  ctx_get h' c' (rs "Integer") = LNil.
Proof.
  exists (fst (new_stackable_context (fst (new_program_context heap0 (rs "a.dpr"))) 0)), [], 1.
  eexists _, _. split; [|repeat split; calls].
  apply api_stackable; [apply api_program, api_start|apply le_n].
Qed.
Print Assumptions clone_of_stackable_refuted.

(** C21. Set on the table of built-in types is always refused, Overwrite does nothing. *)
Theorem builtins_read_only {U : Unicode} {UOK : UnicodeOk U} :
  forall h cs h' rs,
    do_calls h DEmbedded cs = Some (h', rs) ->
    h' = h /\ Forall2 (fun c r => match c with CSet _ => r = ARefused | COverwrite _ _ => r = AOk end) cs rs.
Proof. exact MapMain.builtins_read_only. Qed.
Print Assumptions builtins_read_only.

Example builtins_read_only_case :
  do_calls three DEmbedded [CSet [x]; COverwrite (rs "Integer") (Some (Ptr 0))] = Some (three, [ARefused; AOk]).
Proof. reflexivity. Qed.

(** C22. After any block of declarations and nested scopes the context is as it was, and every
    context answers every name as if only the declarations outside of inner scopes
    had been made. *)
Theorem scopes_are_balanced {U : Unicode} {UOK : UnicodeOk U} :
  forall h c o s h',
    (forall c' o', nth_error (h_ctxs h) c' = Some o' -> allocated h (cx_map o')) ->
    nth_error (h_ctxs h) c = Some o -> run_script h c s = Some h' ->
    nth_error (h_ctxs h') c = Some o /\
    exists h1 rs, do_calls h (cx_map o) (own_calls s) = Some (h1, rs) /\
      forall c' name, ctx_get h' c' name = ctx_get h1 c' name.
Proof. exact MapMain.scopes_are_balanced. Qed.
Print Assumptions scopes_are_balanced.

Local Definition one_ctx : heap := fst (new_program_context three (rs "a.dpr")).
Example scopes_are_balanced_case : exists h',
  run_script one_ctx 0 (BCall (CSet [x]) (BScope (BCall (CSet [y; x]) (BScope (BCall (CSet [z]) BDone) BDone)) BDone))
    = Some h' /\
  (forall c o, nth_error (h_ctxs one_ctx) c = Some o -> allocated one_ctx (cx_map o)) /\
  ctx_get h' 0 (rs "x") = LFound (Ptr 0) /\ ctx_get h' 0 (rs "y") = LNil.
Proof.
  eexists. split; [calls|]. split; [|split; calls].
  intros [|[|c]] o H; inversion H. repeat constructor.
Qed.
(** With a rollback in between (the parser then goes on with the clone made before,
    while the function returned by StackDeclMap acts on the original) the inner scope
    stays visible. *)
Theorem scope_leaks_after_rollback_refuted : exists h c h1 backup h2 c' h3 n,
  ctx_stack h c = Some (h1, backup) /\ ctx_set h1 c [mkDecl (id "inner" 1) NVar] = SOk h2 /\
  ctx_clone h2 c = Some (h3, c') /\
  ctx_get h c n = LNil /\ ctx_get (ctx_restore h3 c backup) c n = LNil /\
  ctx_get (ctx_restore h3 c backup) c' n <> LNil.
Proof.
  exists one_ctx, 0. eexists _, _, _, _, _, (rs "inner"). repeat split; try calls. vm_compute. discriminate.
Qed.
Print Assumptions scope_leaks_after_rollback_refuted.

(** C24, C20. In the context of a unit that imported the units of its uses clause, declared names
    and opened scopes, a name means: what the innermost scope says, then the next outer
    ones, the unit's own declarations, then the used units from the last to the first,
    then what was visible before the import (the built-in types). *)
Theorem names_across_units {U : Unicode} {UOK : UnicodeOk U} :
  forall h c o units us used h1 own inner h2 name,
    nth_error (h_ctxs h) c = Some o -> parent_units h c = Some units ->
    (forall a, In a us -> exists item, nth_error (h_uses h) a = Some item /\ u_unit item = None) ->
    allocated h (cx_map o) -> (forall u, In u units -> allocated h (unit_map h u)) ->
    chosen h units us used ->
    import_unit_decls h c us = Some h1 -> nest h1 c own inner = Some h2 ->
    ctx_get h2 c name =
      first_found (map (fun cs => scope_says cs name) (rev (own :: inner)) ++
                   map (fun u => dget h (unit_map h u) name) (rev used) ++
                   [dget h (cx_map o) name]).
Proof. exact MapMain.names_across_units. Qed.
Print Assumptions names_across_units.

(** Two units, both declaring A, the first also B; a unit uses both. *)
Local Definition used : heap :=
  let h := with_maps [[(rs "a", Some (Ptr 0)); (rs "b", Some (Ptr 1))]; [(rs "a", Some (Ptr 2))]] three in
  let u n m := mkUnit [] (id n 1) None None None None (DImpl m) in
  let h := with_units [u "U1"%string 0; u "U2"%string 1] h in
  let h := with_uses [mkUses (id "u1" 1) None None; mkUses (id "U2" 2) None None; mkUses (id "SysUtils" 3) None None] h in
  let h := fst (new_program_context h (rs "p.dpr")) in
  let h := add_unit (add_unit h 0 0) 0 1 in
  fst (new_unit_context h 0 (rs "u.pas")).
Example names_across_units_case :
  parent_units used 1 = Some [0; 1] /\ chosen used [0; 1] [0; 1; 2] [0; 1] /\
  match import_unit_decls used 1 [0; 1; 2] with
  | None => False
  | Some h1 =>
      match nest h1 1 [CSet [x]] [[CSet [y]]; [CSet [(id "X" 9, Ptr 2)]]] with
      | None => False
      | Some h2 => map (ctx_get h2 1) [rs "A"; rs "b"; rs "x"; rs "Real48"; rs "c"] =
                   [LFound (Ptr 2); LFound (Ptr 1); LFound (Ptr 2); LFound (Emb 0); LNil]
      end
  end.
Proof.
  split; [reflexivity|]. split.
  - apply ch_take; [exists [], [1]; repeat split; constructor|].
    apply ch_take; [exists [0], []; repeat split; constructor; [vm_compute; discriminate|constructor]|].
    apply ch_skip; [repeat constructor; vm_compute; discriminate|constructor].
  - calls.
Qed.

(** C25. Units.ByName: the first unit of that name up to letter case, nil iff there is none. *)
Theorem unit_by_name {U : Unicode} {UOK : UnicodeOk U} :
  forall us name,
    (forall u, units_by_name us name = Some u <->
       exists pre post, us = pre ++ u :: post /\ same_name (i_name (un_ident u)) name /\
         Forall (fun v => ~ same_name (i_name (un_ident v)) name) pre) /\
    (units_by_name us name = None <-> Forall (fun v => ~ same_name (i_name (un_ident v)) name) us).
Proof. exact MapMain.unit_by_name. Qed.
Print Assumptions unit_by_name.

(** C25. The same for UsesClause.Find. *)
Theorem uses_by_name {U : Unicode} {UOK : UnicodeOk U} :
  forall us name,
    (forall u, uses_find us name = Some u <->
       exists pre post, us = pre ++ u :: post /\ same_name (i_name (u_ident u)) name /\
         Forall (fun v => ~ same_name (i_name (u_ident v)) name) pre) /\
    (uses_find us name = None <-> Forall (fun v => ~ same_name (i_name (u_ident v)) name) us).
Proof. exact MapMain.uses_by_name. Qed.
Print Assumptions uses_by_name.

(** C25. The same for IdentList.Find. *)
Theorem ident_by_name {U : Unicode} {UOK : UnicodeOk U} :
  forall l name,
    (forall i, ident_list_find l name = Some i <->
       exists pre post, l = pre ++ i :: post /\ same_name (i_name i) name /\
         Forall (fun v => ~ same_name (i_name v) name) pre) /\
    (ident_list_find l name = None <-> Forall (fun v => ~ same_name (i_name v) name) l).
Proof. exact MapMain.ident_by_name. Qed.
Print Assumptions ident_by_name.

Example ident_by_name_case :
  ident_list_find [id "A" 1; id "b" 2; id "B" 3] (rs "B") = Some (id "b" 2) /\
  ident_list_find [id "A" 1; id "b" 2] (rs "c") = None.
Proof. split; reflexivity. Qed.

(** C25. The same for Decls.Find. *)
Theorem decl_by_name {U : Unicode} {UOK : UnicodeOk U} :
  forall l name,
    (forall d, decls_find l name = Some d <->
       exists pre post, l = pre ++ d :: post /\ same_name (i_name (d_ident d)) name /\
         Forall (fun v => ~ same_name (i_name (d_ident v)) name) pre) /\
    (decls_find l name = None <-> Forall (fun v => ~ same_name (i_name (d_ident v)) name) l).
Proof. exact MapMain.decl_by_name. Qed.
Print Assumptions decl_by_name.

(** C25. Compact keeps exactly the entries that are not nil, in order. *)
Theorem compact_drops_nils {U : Unicode} {UOK : UnicodeOk U} :
  forall (A : Type) (l : list (option A)), picks (fun x => x <> None) l (map Some (compact l)).
Proof. exact MapMain.compact_drops_nils. Qed.
Print Assumptions compact_drops_nils.

Example compact_drops_nils_case : compact [Some 1; None; Some 2; Some 1; None] = [1; 2; 1].
Proof. reflexivity. Qed.
