(** Properties of declaration maps, contexts and finding by name.  Definitions used in
    the statements are in MapSpec (and the model in Ast, Heap); proofs in MapMain. *)
From Coq Require Import String List NArith Bool Arith Lia List.
From Verif Require Import Runes UnicodeFacts Token Ast Ext ExtSpec Heap MapSpec MapMain.
Import ListNotations.

(** The examples use the Latin-1 tables. *)
#[local] Existing Instance latin1 | 100.
#[local] Existing Instance latin1_ok | 100.

Local Definition at_ (n : nat) : option (position * position) := Some (mkPos 1 n n, mkPos 1 (S n) (S n)).
Local Definition id (s : string) (n : nat) : ident := mkIdent (rs s) (at_ n).
(** Three declarations, x, y and z, and one empty map. *)
Local Definition three : heap :=
  with_decls [mkDecl (id "x" 1) NVar; mkDecl (id "Y" 2) NVar; mkDecl (id "z" 3) NVar] (with_maps [[]] heap0).
Local Notation x := (id "x" 1, Ptr 0).
Local Notation y := (id "Y" 2, Ptr 1).
Local Notation z := (id "z" 3, Ptr 2).
Local Ltac calls := vm_compute; reflexivity.

@@ C17 MapMain map_history
After any history of Set and Overwrite on a fresh map, Get tells the newest binding
    of the name up to letter case, and Set answered as the history demands.
---
Example map_history_case :
  let cs := [CSet [x; y]; CSet [z; x]; COverwrite (rs "X") (Some (Ptr 2))] in
  exists h', nth_error (h_maps three) 0 = Some [] /\ do_calls three (DImpl 0) cs = Some (h', [AOk; ARefused; AOk]) /\
    dget h' (DImpl 0) (rs "x") = LFound (Ptr 2) /\ dget h' (DImpl 0) (rs "y") = LFound (Ptr 1) /\
    dget h' (DImpl 0) (rs "Z") = LFound (Ptr 2) /\ dget h' (DImpl 0) (rs "w") = LNil.
Proof. eexists. repeat split; calls. Qed.

@@ C17 MapMain calls_leave_other_names
Calls that mention only other names do not change the answer for a name, on any map.
---
Example calls_leave_other_names_case : exists h',
  do_calls three (DImpl 0) [CSet [x]; COverwrite (rs "Z") None] = Some (h', [AOk; AOk]) /\
  ~ same_name (rs "x") (rs "y") /\ ~ same_name (rs "Z") (rs "y").
Proof. eexists. split; [calls|]. split; vm_compute; discriminate. Qed.

@@ C17 MapMain overwrite_then_get
What Overwrite bound is found, in any letter case, through a map of any build.
---
Example overwrite_then_get_case : exists h',
  doverwrite three (DComposite [DChained DEmbedded 0; DEmbedded]) (rs "Foo") (Some (Ptr 1)) = Some h' /\
  same_name (rs "fOO") (rs "Foo") /\ dget h' (DComposite [DChained DEmbedded 0; DEmbedded]) (rs "FOO") = LFound (Ptr 1).
Proof. eexists. repeat split; calls. Qed.

@@ C17 MapMain get_ignores_case
Two spellings equal in lower case and in upper case are the same name to every map.
---
(** Equal in lower case is not enough for the built-in types, which are kept in upper
    case: with Go's tables U+0130 has the lower case i but is its own upper case. *)
Definition dotted : Unicode := {|
  u_letter := @u_letter latin1; u_space := @u_space latin1; u_upper := @u_upper latin1;
  u_lower := fun r => if (r =? 304)%N then 105%N else @u_lower latin1 r |}.
Lemma dotted_ok : UnicodeOk dotted.
Proof.
  destruct latin1_ok. split; auto. intros r H. cbn [u_lower dotted].
  replace (r =? 304)%N with false by (symmetry; apply N.eqb_neq; lia). auto.
Qed.
Theorem get_ignores_case_refuted : exists (U : Unicode) n1 n2, UnicodeOk U /\
  to_lower n1 = to_lower n2 /\ dget heap0 DEmbedded n1 <> LNil /\ dget heap0 DEmbedded n2 = LNil.
Proof.
  exists dotted, (rs "integer"), (304%N :: rs "nteger"). split; [exact dotted_ok|].
  split; [reflexivity|]. split; [vm_compute; discriminate|reflexivity].
Qed.
Print Assumptions get_ignores_case_refuted.

@@ C18 MapMain set_refuses_redeclaration
Set with a name that is taken is refused and everything bound before stays bound as it
    was.  (Declarations are located, as those of the parser are: the error message
    prints both places.)
---
Example set_refuses_redeclaration_case : exists h' h'' j,
  dset three (DImpl 0) [x; y] = SOk h' /\ dset h' (DImpl 0) [z; (id "y" 5, Ptr 1)] = SErr h'' j /\
  j = id "y" 5 /\ dget h' (DImpl 0) (rs "y") = LFound (Ptr 1).
Proof. eexists _, _, _. repeat split; calls. Qed.

@@ C18 MapMain set_binds_new_names
Set with new names, distinct up to letter case, binds them all and nothing else.
---
Example set_binds_new_names_case :
  NoDup (map (fun p => to_lower (i_name (fst p))) [x; y; z]) /\
  forall i d, In (i, d) [x; y; z] -> mget (to_lower (i_name i)) [] = None.
Proof.
  split; [|intros; reflexivity].
  repeat (constructor; [cbn; intros H; repeat destruct H as [H|H]; try discriminate H; contradiction|]). constructor.
Qed.

(** A refused Set may have bound some of its names. *)
Theorem set_atomic_refuted : exists h m ds h' i n d,
  dset h m ds = SErr h' i /\ dget h m n = LNil /\ dget h' m n = LFound d.
Proof. exists three, (DImpl 0), [x; y; x]. eexists _, _, (rs "y"), _. repeat split; calls. Qed.
Print Assumptions set_atomic_refuted.
(** Overwriting with nil makes a later Set of that name panic. *)
Theorem set_after_overwrite_nil_refuted : exists h m n h' ds,
  doverwrite h m n None = Some h' /\ dget h' m n = LNil /\ dset h' m ds = SPanic /\ Forall (fun p => located h' (snd p)) ds.
Proof.
  exists three, (DImpl 0), (rs "x"). eexists _, [x]. repeat split; try calls.
  constructor; [|constructor]. exists (mkDecl (id "x" 1) NVar). split; [reflexivity|discriminate].
Qed.
Print Assumptions set_after_overwrite_nil_refuted.

@@ C19 MapMain inner_scope_shadows
A scope on top of any map: it answers first, the outer map answers for the rest, and
    no history of calls on it changes any answer of the outer map.
---
Example inner_scope_shadows_case : exists h0 h1 m h2,
  dset three (DImpl 0) [x; y] = SOk h0 /\ allocated h0 (DImpl 0) /\ new_chained h0 (DImpl 0) = (h1, m) /\
  do_calls h1 m [CSet [(id "Y" 7, Ptr 2)]; COverwrite (rs "w") (Some (Ptr 0))] = Some (h2, [AOk; AOk]) /\
  dget h2 m (rs "y") = LFound (Ptr 2) /\ dget h2 (DImpl 0) (rs "y") = LFound (Ptr 1) /\
  dget h2 m (rs "x") = LFound (Ptr 0) /\ dget h2 (DImpl 0) (rs "w") = LNil.
Proof. eexists _, _, _, _. repeat split; try calls. repeat constructor. Qed.

@@ C19 MapMain inner_scope_may_redeclare
In a fresh inner scope any distinct names can be declared, whatever the outer one has.
---

@@ C20 MapMain composite_finds_first
A composite finds a name in the first of its maps that knows it.
---
Local Definition two_maps : heap :=
  with_maps [[(rs "a", Some (Ptr 0))]; [(rs "a", Some (Ptr 1)); (rs "b", Some (Ptr 2))]] three.
Example composite_finds_first_case :
  dget two_maps (DComposite [DImpl 0; DImpl 1]) (rs "A") = LFound (Ptr 0) /\
  dget two_maps (DComposite [DImpl 1; DImpl 0]) (rs "A") = LFound (Ptr 1) /\
  dget two_maps (DComposite [DImpl 0; DImpl 1]) (rs "b") = LFound (Ptr 2).
Proof. repeat split; calls. Qed.

@@ C20 MapMain composite_finds_none
It finds none iff none of its maps does.
---

@@ C20 MapMain composite_writes_first
Set and Overwrite on a composite act on its first map and change no map that does not
    read the object written.
---
Example composite_writes_first_case : exists h',
  do_calls two_maps (DComposite [DImpl 0; DImpl 1]) [COverwrite (rs "b") (Some (Ptr 0))] = Some (h', [AOk]) /\
  dget h' (DImpl 0) (rs "b") = LFound (Ptr 0) /\ dget h' (DImpl 1) (rs "b") = LFound (Ptr 2) /\
  (forall a, target (DImpl 0) = Some a -> ~ In a (addrs (DImpl 1))).
Proof. eexists. repeat split; try calls. intros a [= <-] [H|[]]. discriminate. Qed.

@@ C21 MapMain builtins_found_any_case
Every built-in type is found in any letter case, with its kind.
---
Example builtins_found_any_case_case :
  builtin EtkOrdIdent "LongWord" /\ to_upper (rs "longWORD") = to_upper (rs "LongWord").
Proof. split; [cbn; auto 20|reflexivity]. Qed.

@@ C21 MapMain builtins_only
Nothing else is found in the table of built-in types.
---

@@ C21 MapMain builtins_always_visible
In every context that the context functions can produce, a built-in name is always
    found, and is the built-in type unless one of the maps looked in binds the name.
---
Example builtins_always_visible_case : exists h c,
  api h [(c, DChained DEmbedded 0)] /\ ctx_get h c (rs "INTEGER") = LFound (Emb 7) /\
  ctx_get h c (rs "byte") = LFound (Ptr 0).
Proof.
  set (h1 := fst (new_program_context heap0 (rs "a.dpr"))).
  destruct (ctx_stack h1 0) as [[h2 b]|] eqn:S; [|discriminate].
  destruct (ctx_set h2 0 [mkDecl (id "Byte" 1) NVar]) as [h3|h3 i|] eqn:C;
    [|vm_compute in S; injection S as <- <-; discriminate..].
  exists h3, 0. split.
  - eapply api_set_ok; [|exact C]. vm_compute in S. injection S as S1 S2. subst b.
    eapply api_stack with (h := h1); [apply api_program, api_start|]. rewrite <- S1. reflexivity.
  - vm_compute in S. injection S as <- <-. vm_compute in C. injection C as <-. split; calls.
Qed.
(** Not so for the clone of a stackable context: it has lost its parent. *)
Theorem clone_of_stackable_refuted : exists h bs c h' c',
  api h bs /\ ctx_clone h c = Some (h', c') /\ ctx_get h' c (rs "Integer") = LFound (Emb 7) /\
  ctx_get h' c' (rs "Integer") = LNil.
Proof.
  exists (fst (new_stackable_context (fst (new_program_context heap0 (rs "a.dpr"))) 0)), [], 1.
  eexists _, _. split; [|repeat split; calls].
  apply api_stackable; [apply api_program, api_start|apply le_n].
Qed.
Print Assumptions clone_of_stackable_refuted.

@@ C21 MapMain builtins_read_only
Set on the table of built-in types is always refused, Overwrite does nothing.
---
Example builtins_read_only_case :
  do_calls three DEmbedded [CSet [x]; COverwrite (rs "Integer") (Some (Ptr 0))] = Some (three, [ARefused; AOk]).
Proof. reflexivity. Qed.

@@ C22 MapMain scopes_are_balanced
After any block of declarations and nested scopes the context is as it was, and every
    context answers every name as if only the declarations outside of inner scopes
    had been made.
---
Local Definition one_ctx : heap := fst (new_program_context three (rs "a.dpr")).
Example scopes_are_balanced_case : exists h',
  run_script one_ctx 0 (BCall (CSet [x]) (BScope (BCall (CSet [y; x]) (BScope (BCall (CSet [z]) BDone) BDone)) BDone))
    = Some h' /\
  (forall c o, nth_error (h_ctxs one_ctx) c = Some o -> allocated one_ctx (cx_map o)) /\
  ctx_get h' 0 (rs "x") = LFound (Ptr 0) /\ ctx_get h' 0 (rs "y") = LNil.
Proof.
  eexists. split; [calls|]. split; [|split; calls].
  intros [|[|c]] o H; inversion H. repeat constructor.
Qed.
(** With a rollback in between (the parser then goes on with the clone made before,
    while the function returned by StackDeclMap acts on the original) the inner scope
    stays visible. *)
Theorem scope_leaks_after_rollback_refuted : exists h c h1 backup h2 c' h3 n,
  ctx_stack h c = Some (h1, backup) /\ ctx_set h1 c [mkDecl (id "inner" 1) NVar] = SOk h2 /\
  ctx_clone h2 c = Some (h3, c') /\
  ctx_get h c n = LNil /\ ctx_get (ctx_restore h3 c backup) c n = LNil /\
  ctx_get (ctx_restore h3 c backup) c' n <> LNil.
Proof.
  exists one_ctx, 0. eexists _, _, _, _, _, (rs "inner"). repeat split; try calls. vm_compute. discriminate.
Qed.
Print Assumptions scope_leaks_after_rollback_refuted.

@@ C24,C20 MapMain names_across_units
In the context of a unit that imported the units of its uses clause, declared names
    and opened scopes, a name means: what the innermost scope says, then the next outer
    ones, the unit's own declarations, then the used units from the last to the first,
    then what was visible before the import (the built-in types).
---
(** Two units, both declaring A, the first also B; a unit uses both. *)
Local Definition used : heap :=
  let h := with_maps [[(rs "a", Some (Ptr 0)); (rs "b", Some (Ptr 1))]; [(rs "a", Some (Ptr 2))]] three in
  let u n m := mkUnit [] (id n 1) None None None None (DImpl m) in
  let h := with_units [u "U1"%string 0; u "U2"%string 1] h in
  let h := with_uses [mkUses (id "u1" 1) None None; mkUses (id "U2" 2) None None; mkUses (id "SysUtils" 3) None None] h in
  let h := fst (new_program_context h (rs "p.dpr")) in
  let h := add_unit (add_unit h 0 0) 0 1 in
  fst (new_unit_context h 0 (rs "u.pas")).
Example names_across_units_case :
  parent_units used 1 = Some [0; 1] /\ chosen used [0; 1] [0; 1; 2] [0; 1] /\
  match import_unit_decls used 1 [0; 1; 2] with
  | None => False
  | Some h1 =>
      match nest h1 1 [CSet [x]] [[CSet [y]]; [CSet [(id "X" 9, Ptr 2)]]] with
      | None => False
      | Some h2 => map (ctx_get h2 1) [rs "A"; rs "b"; rs "x"; rs "Real48"; rs "c"] =
                   [LFound (Ptr 2); LFound (Ptr 1); LFound (Ptr 2); LFound (Emb 0); LNil]
      end
  end.
Proof.
  split; [reflexivity|]. split.
  - apply ch_take; [exists [], [1]; repeat split; constructor|].
    apply ch_take; [exists [0], []; repeat split; constructor; [vm_compute; discriminate|constructor]|].
    apply ch_skip; [repeat constructor; vm_compute; discriminate|constructor].
  - calls.
Qed.

@@ C25 MapMain unit_by_name
Units.ByName: the first unit of that name up to letter case, nil iff there is none.
---
@@ C25 MapMain uses_by_name
The same for UsesClause.Find.
---
@@ C25 MapMain ident_by_name
The same for IdentList.Find.
---
Example ident_by_name_case :
  ident_list_find [id "A" 1; id "b" 2; id "B" 3] (rs "B") = Some (id "b" 2) /\
  ident_list_find [id "A" 1; id "b" 2] (rs "c") = None.
Proof. split; reflexivity. Qed.
@@ C25 MapMain decl_by_name
The same for Decls.Find.
---
@@ C25 MapMain compact_drops_nils
Compact keeps exactly the entries that are not nil, in order.
---
Example compact_drops_nils_case : compact [Some 1; None; Some 2; Some 1; None] = [1; 2; 1].
Proof. reflexivity. Qed.
