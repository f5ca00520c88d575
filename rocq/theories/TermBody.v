(** Units and programs end: interfaces and implementations. *)
From Coq Require Import String List NArith Bool Arith Lia.
From Verif Require Import ListUtil Runes UnicodeFacts Token Tokenizer CursorFacts TokenizerFacts LexSpec LexShape LexFacts LexMain
  Ast Ext Heap Classes MapSpec MapFacts Prog Parser ParseSpec RunFacts WpFacts ExprSpec ExprSound TermSpec TermHeap TermFacts TermExpr
  TermTypes TermClass TermStmt FuelFacts TermMain Units UnitSpec UsesMain TermUnitSpec TermUnit TermHead.
Import ListNotations.
Local Open Scope list_scope.

Section WithUnicode.
Context {U : Unicode} {UOK : UnicodeOk U} {unmapped : Unmapped}.
Local Notation node_there := (node_there unmapped).
Local Notation declared := (declared unmapped).
Local Notation sound := (sound_but unmapped).
Variable text : list rune.
Variable path : gostring.
Variable lax : bool.
Variable D : nat.
Local Notation ok := (TermFacts.ok text path lax D).
Local Notation okw := (TermUnit.okw text path lax D).
Local Notation fin := (TermFacts.fin text path lax D).
Local Notation does := (TermUnit.does text path lax D).
Local Notation mu := (TermFacts.mu text).
Local Notation wstep := (TermUnit.wstep lax D).

Variable n m : nat.
Local Notation R := (recs_at n).
Hypothesis G : rgood text path lax D R m.
Hypothesis M : forall s, lax = true \/ mu s < m.
Hypothesis NA : no_stray_asm text lax.
Hypothesis NT : no_types text lax.

Lemma mu_fuel s : lax = true \/ mu s < n.
Proof.
  destruct (rg_fuel _ _ _ _ _ _ G) as [?|L]; [now left|]. destruct (M s); [now left|right].
  destruct n as [|k]; cbn in L; [lia|]. lia.
Qed.
Lemma mu_le s : lax = true \/ mu s <= m.
Proof. destruct (M s); [now left|right; lia]. Qed.
Lemma mu_rfuel s : lax = true \/ mu s < r_fuel R.
Proof. destruct (rg_fuel _ _ _ _ _ _ G) as [?|L]; [now left|]. destruct (M s); [now left|right; lia]. Qed.

(** ** The interface section *)
Lemma fin_yields {A} from (p : prog A) s (Q : A -> pst -> Prop) P : fin from p s Q -> yields p P ->
  fin from p s (fun a s' => Q a s' /\ P a).
Proof.
  unfold TermFacts.fin. intros F Y. destruct (run p s) as [a s'| | | |] eqn:E; auto.
  destruct F as (O & W & H). split; [exact O|]. split; [exact W|]. split; [exact H|]. eapply Y; eauto.
Qed.
Lemma head_yields k : yields (section_head true k) (fun b => b = true).
Proof. unfold section_head. yl. reflexivity. Qed.
Lemma var_some : yields (parse_var_section R true) (fun r => r <> None).
Proof. unfold parse_var_section. eapply yields_bind; [apply head_yields|]. intros b ->. yl. discriminate. Qed.
Lemma threadvar_some : yields (parse_threadvar_section R true) (fun r => r <> None).
Proof. unfold parse_threadvar_section. eapply yields_bind; [apply head_yields|]. intros b ->. yl. discriminate. Qed.
Lemma const_some : yields (parse_const_section R true) (fun r => r <> None).
Proof. unfold parse_const_section. eapply yields_bind; [apply head_yields|]. intros b ->. yl. discriminate. Qed.

Definition no_itype (d : intfdecl) : Prop := match d with IType _ => False | _ => True end.
Lemma fin_intf_step l s : ok s -> lax = true \/ Forall no_itype l ->
  fin (place s) (intf_decls_step R l) s (fun r s' =>
    match r with inl l' => (lax = true \/ Forall no_itype l') /\ (lax = true \/ mu s' < mu s) | inr l' => lax = true \/ Forall no_itype l' end).
Proof.
  intros O F. pose proof (mu_le s) as Ms. unfold intf_decls_step. go1. go1. rename H into C. go1; [go; assumption|]. go1; [go1|].
  assert (Ad : forall d, no_itype d -> lax = true \/ Forall no_itype (l ++ [d])).
  { intros d Hd. destruct F as [?|F]; [now left|right]. apply Forall_app. auto. }
  cbv zeta. destruct (eqs (value t) "TYPE") eqn:ET.
  { assert (LX : lax = true).
    { destruct NT as [?|N]; [assumption|]. destruct N. exists t. split; [eapply ok_token; eauto|].
      unfold kw, p_keyword. rewrite negb_false_iff in Heqb0. unfold p_type in Heqb0. rewrite Heqb0. exact ET. }
    apply (fin_join _ _ _ _ _ _ _ _ (fun _ _ => True)).
    - eapply fin_conseq; [eapply fin_parse_type_section; eauto|lia|auto].
    - start. go1. auto. }
  destruct (eqs (value t) "VAR").
  { eapply fin_join; [apply fin_yields; [eapply fin_parse_var_section; eauto|apply var_some]|]. start. go1. split; [apply Ad; exact I|auto]. }
  destruct (eqs (value t) "THREADVAR").
  { eapply fin_join; [apply fin_yields; [eapply fin_parse_threadvar_section; eauto|apply threadvar_some]|]. start. go1. split; [apply Ad; exact I|auto]. }
  destruct (eqs (value t) "CONST").
  { eapply fin_join; [apply fin_yields; [eapply fin_parse_const_section; eauto|apply const_some]|]. start. go1. split; [apply Ad; exact I|auto]. }
  assert (EH : forall t', s_cur s = Some t' -> eqs (value t) "FUNCTION" = true \/ eqs (value t) "PROCEDURE" = true ->
             eqs_any (value t') ["PROCEDURE"; "FUNCTION"]%string = true).
  { intros t' Ct' X. assert (t' = t) by congruence. subst. unfold eqs_any. cbn. destruct X as [X|X]; rewrite X; rewrite ?orb_true_r; reflexivity. }
  assert (EL : yields (parse_exported_heading R) no_itype).
  { unfold parse_exported_heading. apply yields_scoped. yl; exact I. }
  destruct (eqs (value t) "FUNCTION") eqn:EF.
  { eapply fin_join; [apply fin_yields; [eapply fin_parse_exported_heading; eauto|exact EL]|]. start. go1. auto. }
  destruct (eqs (value t) "PROCEDURE") eqn:EP.
  { eapply fin_join; [apply fin_yields; [eapply fin_parse_exported_heading; eauto|exact EL]|]. start. go1. auto. }
  go1. exact F.
Qed.
Lemma fin_intf_decls s : ok s ->
  fin (place s) (loop (r_fuel R) (intf_decls_step R) []) s (fun l _ => Forall decls_located l /\ (lax = true \/ Forall no_itype l)).
Proof.
  intros O. eapply fin_conseq; [apply fin_yields; [|apply intf_decls_located]|apply le_n|intros a s' _ _ _ _ [X Y]; split; [exact Y|exact X]].
  apply (fin_loop_inv text path lax D (place s) (fun l _ => lax = true \/ Forall no_itype l) _ _ s); auto; try lia.
  - intros l s1 O1 P1 M1 R1 F1. eapply fin_conseq; [now apply fin_intf_step|lia|auto].
  - apply mu_rfuel.
Qed.
Lemma set_all_good l : forall h mp, sound h -> usable h mp ->
  Forall (Forall (fun o => (located_ident (d_ident o) /\ match d_node o with NUses _ | NUnit _ | NProgram _ => False | _ => True end) /\
                           (lax = true \/ no_type o))) l ->
  exists h', set_all h mp l = Some h' /\ good_step lax h h'.
Proof.
  induction l as [|ds l IH]; intros h mp S W F; cbn [set_all]; [exists h; split; [reflexivity|now apply good_refl]|].
  inversion F as [|? ? Fd F']; subst.
  assert (X : Forall (fun d => i_loc (d_ident d) <> None /\ node_there h (to_lower (i_name (d_ident d))) (d_node d) /\ (lax = true \/ no_type d)) ds).
  { eapply Forall_impl; [|exact Fd]. intros d [[L Nd] T]. split; [exact L|]. split; [|exact T]. destruct (d_node d); try exact I; destruct Nd. }
  pose proof (map_set_good lax h mp ds S W X) as Y. destruct (map_set h mp ds) as [h1|h1 i|]; [| |destruct Y].
  1, 2: destruct (IH h1 mp (proj1 Y) (usable_grew lax _ _ _ (proj2 Y) W) F') as (h2 & E & G2); exists h2; split; [exact E|];
    eapply good_trans; eauto.
Qed.
Lemma nodes_of l : Forall decls_located l -> lax = true \/ Forall no_itype l ->
  Forall (Forall (fun o => (located_ident (d_ident o) /\ match d_node o with NUses _ | NUnit _ | NProgram _ => False | _ => True end) /\
                           (lax = true \/ no_type o))) (flat_map intf_decl_nodes l).
Proof.
  induction 1 as [|d l Hd F IH]; intros T; cbn [flat_map]; [constructor|]. apply Forall_app. split.
  - assert (Td : lax = true \/ no_itype d) by (destruct T as [?|T]; [now left|right; now inversion T]).
    unfold decls_located in Hd. rewrite Forall_forall in Hd |- *. intros ds Ids. specialize (Hd ds Ids).
    rewrite Forall_forall in Hd |- *. intros o Io. split; [exact (Hd o Io)|]. destruct Td as [?|Td]; [now left|right].
    destruct d; cbn in Td, Ids; [destruct Td| | | |].
    1, 2: apply in_map_iff in Ids as (x & <- & _); apply in_map_iff in Io as (y & <- & _); unfold no_type; cbn; discriminate.
    + apply in_map_iff in Ids as (x & <- & _). destruct Io as [<-|[]]. unfold no_type. cbn. discriminate.
    + destruct Ids as [<-|[]]. destruct Io as [<-|[]]. unfold no_type. cbn. discriminate.
  - apply IH. destruct T as [?|T]; [now left|right; now inversion T].
Qed.
Lemma does_intf_body u s : okw s -> (exists o, nth_error (h_units (s_heap s)) u = Some o) ->
  does (parse_unit_intf_body R u) s (fun _ s' => unit_there (s_heap s') u).
Proof.
  intros O (o & Eu). unfold parse_unit_intf_body. eapply does_join; [eapply does_method; [exact O|exact (fin_intf_decls s)|intros a s' _ _ _ X; exact X]|].
  intros l s1 O1 W1 M1 [Fl Tl]. apply does_onheap; [exact O1|].
  destruct (w_units _ _ W1 _ _ Eu) as (o1 & E1 & _).
  set (h0 := s_heap s1) in *. pose proof (okw_sound _ _ _ _ _ O1) as S0. pose proof (okw_fine _ _ _ _ _ O1) as F0. fold h0 in S0, F0.
  set (h1 := put_unit h0 u _). assert (W01 : wstep h0 h1).
  { apply wstep_change; auto; try reflexivity. intros x sec Ex. cbn. rewrite Ex. cbn. eexists. split; reflexivity. }
  assert (E2 : exists o2, nth_error (h_units h1) u = Some o2) by (eexists; apply put_unit_at; exact E1).
  clearbody h1. destruct E2 as (o2 & E2).
  pose proof (new_map_good lax h1 (proj1 W01)) as [G2 L2]. destruct (new_map h1) as [h2 a] eqn:En. cbn [fst snd] in G2, L2.
  destruct (set_all_good (flat_map intf_decl_nodes l) h2 (DImpl a) (proj1 G2) L2 (nodes_of l Fl Tl)) as (h3 & -> & G3).
  assert (W12 : wstep h1 h3).
  { apply wstep_good; [apply W01|]. eapply good_trans; eauto. }
  assert (E3 : exists o3, nth_error (h_units h3) u = Some o3).
  { destruct (w_units _ _ (proj1 (proj2 (proj2 W12))) _ _ E2) as (o3 & E3 & _). eauto. }
  destruct E3 as (o3 & E3).
  assert (L3 : a < length (h_maps h3)).
  { pose proof (g_maps _ _ _ (proj2 G3)). lia. }
  assert (W3 : wstep h3 (put_unit h3 u (with_unit_map (DImpl a)))).
  { apply wstep_put_unit; [apply W12|apply W12|]. intros x Ex. split; [reflexivity|]. split; [|intros _; exact L3]. cbn. eauto. }
  split; [eapply wstep_trans; [exact W01|]; eapply wstep_trans; [exact W12|exact W3]|].
  cbn [s_heap with_heap]. eexists. split; [apply put_unit_at; exact E3|]. cbn [un_map with_unit_map usable].
  unfold put_unit. rewrite E3. exact L3.
Qed.

(** ** The units that a unit uses *)
Lemma usable_all h ms : usable h (DComposite ms) <-> ms <> [] /\ Forall (usable h) ms.
Proof.
  cbn [usable]. enough (X : forall l, (fix all (ms : list dmap) : Prop := match ms with [] => True | m :: ms' => usable h m /\ all ms' end) l <-> Forall (usable h) l)
    by (now rewrite X).
  induction l as [|x l IH]; [split; auto|]. rewrite IH. split; [intros [A B]; auto|intros A; now inversion A].
Qed.
Lemma uses_put_name h a u b : uses_name (uses_put_unit h a u) b = uses_name h b.
Proof.
  unfold uses_put_unit. destruct (nth_error (h_uses h) a) as [o|] eqn:E; [|reflexivity]. unfold uses_name. cbn.
  destruct (Nat.eq_dec a b) as [->|N]; [rewrite (nth_set_same b _ _ o E), E; reflexivity|now rewrite nth_set_other].
Qed.
Lemma uses_put_rest h a u : h_ctxs (uses_put_unit h a u) = h_ctxs h /\ h_units (uses_put_unit h a u) = h_units h.
Proof. unfold uses_put_unit. now destruct (nth_error _ _). Qed.
Lemma find_name_ext {A} (f g : A -> gostring) l name : (forall x, f x = g x) -> find_name f l name = find_name g l name.
Proof. intros E. induction l as [|x l IH]; cbn; [reflexivity|]. now rewrite E, IH. Qed.
Lemma assign_wstep us : forall h units, sound h -> uses_fine h ->
  (forall a u, In a us -> find_name (unit_name h) units (uses_name h a) = Some u -> unit_there h u) ->
  wstep h (assign_units_loop h units us) /\ h_ctxs (assign_units_loop h units us) = h_ctxs h /\
  h_units (assign_units_loop h units us) = h_units h.
Proof.
  induction us as [|a us IH]; intros h units S F T; cbn [assign_units_loop]; [split; [now apply wstep_refl|auto]|].
  destruct (find_name (unit_name h) units (uses_name h a)) as [u|] eqn:E.
  - assert (W : wstep h (uses_put_unit h a u)) by (apply wstep_uses_put; auto; apply (T a); [now left|exact E]).
    destruct (uses_put_rest h a u) as [C1 C2].
    destruct (IH (uses_put_unit h a u) units) as (W2 & D1 & D2); [apply W|apply W| |].
    + intros b v I E2. apply (proj1 (proj2 (proj2 W))), (T b v); [now right|]. rewrite uses_put_name in E2. rewrite <- E2.
      apply find_name_ext. intros x. unfold unit_name. now rewrite C2.
    + split; [eapply wstep_trans; eauto|]. split; congruence.
  - apply IH; auto. intros b v I. apply T. now right.
Qed.
Lemma compact_in {A} (l : list (option A)) x : In x (compact l) -> In (Some x) l.
Proof.
  unfold compact. enough (X : forall l r, In x (compact_acc l r) -> In (Some x) l \/ In x r).
  { intros I. destruct (X _ _ I) as [?|[]]. assumption. }
  clear l. induction l as [|[y|] l IH]; intros r I; cbn in *; [auto| |].
  - destruct (IH _ I) as [?|I2]; [auto|]. apply in_app_or in I2 as [?|[->|[]]]; auto.
  - destruct (IH _ I); auto.
Qed.
Lemma used_there h us v : uses_fine h -> In v (compact (uses_units h us)) -> unit_there h v.
Proof.
  intros F I. apply compact_in in I. unfold uses_units in I. apply in_map_iff in I as (a & E & _).
  destruct (nth_error (h_uses h) a) as [o|] eqn:Eo; [|discriminate]. unfold uses_fine in F. rewrite Forall_forall in F.
  eapply F; [eapply nth_error_In; exact Eo|exact E].
Qed.
Lemma units_maps_usable h us : Forall (unit_there h) us -> Forall (usable h) (units_maps h us).
Proof.
  intros F. unfold units_maps. rewrite Forall_map. eapply Forall_impl; [|exact F]. intros u (o & E & W). now rewrite E.
Qed.
Lemma import_wstep h c us units p : sound h -> uses_fine h -> ctx_path h c = Some p -> parent_units h c = Some units ->
  (forall a u, In a us -> find_name (unit_name h) units (uses_name h a) = Some u -> unit_there h u) ->
  exists h', import_unit_decls h c us = Some h' /\ wstep h h'.
Proof.
  intros S F CP PU T. unfold import_unit_decls, assign_units. rewrite PU. cbn [option_map].
  destruct (assign_wstep us h units S F T) as (W & C1 & C2). set (h1 := assign_units_loop h units us) in *. clearbody h1.
  destruct (ctx_path_inv _ _ _ S CP) as (o & No & _ & _ & Wo).
  pose proof (new_map_good lax h1 (proj1 W)) as [G2 L2]. destruct (new_map h1) as [h2 a] eqn:En. cbn [fst snd] in G2, L2.
  assert (N2 : nth_error (h_ctxs h2) c = Some o).
  { unfold new_map in En. injection En as <- _. cbn. now rewrite C1. }
  rewrite N2. eexists. split; [reflexivity|]. eapply wstep_trans; [exact W|].
  apply wstep_good; [apply W|]. eapply good_trans; [exact G2|]. apply put_map_good; [apply G2|].
  rewrite usable_all. split; [discriminate|]. constructor; [exact L2|]. apply Forall_app. split.
  - rewrite MapMain.maps_reverse_rev. apply Forall_rev, units_maps_usable. apply Forall_forall. intros v I.
    apply (unit_there_grew lax h1); [apply G2|]. eapply used_there; [apply W|exact I].
  - constructor; [|constructor]. apply (usable_maps h); [|exact Wo].
    pose proof (w_maps _ _ (proj1 (proj2 (proj2 W)))). pose proof (g_maps _ _ _ (proj2 G2)). lia.
Qed.

(** ** The implementation section *)
Lemma path_wide s s' c p : okw s -> wider (s_heap s) (s_heap s') -> ctx_path (s_heap s) c = Some p -> ctx_path (s_heap s') c = Some p.
Proof. intros O W. apply ctx_path_wider; [eapply okw_sound; exact O|exact W]. Qed.
Lemma does_change u f s : okw s ->
  (forall o, un_ident (f o) = un_ident o) -> (forall o, un_map (f o) = un_map o) ->
  (forall o s, un_intf o = Some s -> exists s', un_intf (f o) = Some s' /\ is_uses s' = is_uses s) ->
  does (change_unit u f) s (fun _ _ => True).
Proof.
  intros O A B C. apply does_onheap; [exact O|]. split; [|exact I]. apply wstep_change; auto; [now apply okw_sound in O|apply O].
Qed.
Lemma does_impl_uses uc u s p : okw s -> ctx_path (s_heap s) uc = Some p ->
  does (parse_impl_uses R uc u) s (fun _ _ => True).
Proof.
  intros O CP. unfold parse_impl_uses. apply does_bind, does_expect; [exact O|]. intros t C K.
  apply does_bind, does_Next; [exact O|]. intros c s1 O1 C1 H1 _ _ _ _ _.
  apply (does_join _ _ _ _ _ _ _ (fun _ _ => True)).
  { apply does_onheap; [exact O1|]. rewrite H1.
    destruct (ctx_stack_good lax (s_heap s) uc p) as (h' & mm & -> & Gs & _); [now apply okw_sound in O|exact CP|].
    split; [|exact I]. apply wstep_good; [apply O|exact Gs]. }
  intros _ s2 O2 _ _ _. apply does_bind, does_is; [exact O2|]. intros t2 C2.
  apply (does_join _ _ _ _ _ _ _ (fun _ _ => True)).
  { destruct (kw "USES" t2); [|now apply does_ret]. eapply does_join; [apply does_uses_next; [exact O2|exact mu_fuel]|].
    intros us s3 O3 _ _ _. now apply does_ret. }
  intros l s3 O3 _ _ _. eapply does_join; [apply does_change; auto; cbn; eauto|].
  intros _ s4 O4 _ _ _. now apply does_ret.
Qed.
Lemma does_impl_scope uc u us s p units : okw s -> ctx_path (s_heap s) uc = Some p -> parent_units (s_heap s) uc = Some units ->
  Forall (unit_there (s_heap s)) units -> unit_there (s_heap s) u ->
  does (impl_scope uc u us) s (fun mp s' => usable (s_heap s') mp).
Proof.
  intros O CP PU TU Tu. unfold impl_scope. apply does_onheap; [exact O|].
  set (h := s_heap s) in *. pose proof (okw_sound _ _ _ _ _ O : sound h) as S. pose proof (okw_fine _ _ _ _ _ O : uses_fine h) as F.
  unfold assign_units. rewrite PU. cbn [option_map].
  destruct (assign_wstep us h units S F) as (W & C1 & C2).
  { intros a v _ E. rewrite Forall_forall in TU. apply TU. clear - E. revert E. induction units as [|x l IH]; cbn; [discriminate|].
    destruct (runes_equal _ _); [intros [= ->]; now left|]. intros E. right. auto. }
  set (h1 := assign_units_loop h units us) in *. clearbody h1.
  destruct (ctx_path_inv _ _ _ S CP) as (o & No & _ & _ & Wo). rewrite C1, No.
  destruct (w_there _ _ (proj1 (proj2 (proj2 W))) _ Tu) as (uo & Eu & Wu). rewrite Eu.
  pose proof (new_map_good lax h1 (proj1 W)) as [G2 L2]. destruct (new_map h1) as [h2 a] eqn:En. cbn [fst snd] in G2, L2.
  assert (E2 : nth_error (h_units h2) u = Some uo) by (unfold new_map in En; injection En as <- _; exact Eu).
  assert (W12 : wstep h1 h2) by (apply wstep_good; [apply W|exact G2]).
  assert (Wu2 : usable h2 (un_map uo)) by (apply (usable_grew lax h1); [apply G2|exact Wu]).
  set (h3 := put_unit h2 u _). assert (W3 : wstep h2 h3).
  { apply wstep_put_unit; [apply W12|apply W12|]. intros x Ex. split; [reflexivity|]. split; [cbn; eauto|]. intros _.
    cbn [un_map with_unit_map]. rewrite usable_all. split; [discriminate|]. constructor; [exact L2|]. constructor; [exact Wu2|constructor]. }
  assert (L3 : length (h_maps h3) = length (h_maps h2)) by (unfold h3, put_unit; rewrite E2; reflexivity).
  clearbody h3.
  assert (G4 : good_step lax h3 (ctx_put_map h3 uc (DComposite ([DImpl a; cx_map o] ++ maps_reverse (units_maps h3 (compact (uses_units h1 us))))))).
  { apply put_map_good; [apply W3|]. rewrite usable_all. split; [discriminate|]. cbn [app]. constructor; [cbn; lia|]. constructor.
    - apply (usable_maps h); [|exact Wo]. pose proof (w_maps _ _ (proj1 (proj2 (proj2 W)))).
      pose proof (g_maps _ _ _ (proj2 G2)). lia.
    - rewrite MapMain.maps_reverse_rev. apply Forall_rev, units_maps_usable. apply Forall_forall. intros v I.
      apply (w_there _ _ (proj1 (proj2 (proj2 W3)))). apply (unit_there_grew lax h1); [apply G2|].
      eapply used_there; [apply W|exact I]. }
  split.
  - eapply wstep_trans; [exact W|]. eapply wstep_trans; [exact W12|]. eapply wstep_trans; [exact W3|].
    apply wstep_good; [apply W3|exact G4].
  - cbn [s_heap with_heap]. apply (usable_grew lax h3); [apply G4|]. apply (usable_maps h2); [lia|exact Wu2].
Qed.
Lemma does_impl_body u s : okw s -> does (parse_impl_body R u) s (fun _ _ => True).
Proof.
  intros O. unfold parse_impl_body.
  eapply does_join; [eapply does_method; [exact O|intros X; eapply fin_parse_decl_sections; eauto using mu_le|intros a s' _ _ _ X; exact X]|].
  intros ds s1 O1 _ _ _. eapply does_join; [apply does_change; auto; cbn; eauto|]. intros _ s2 O2 _ _ _.
  eapply does_join; [eapply does_method; [exact O2|intros X; eapply fin_parse_exports_stmts; eauto using mu_le|intros a s' _ _ _ X; exact X]|].
  intros ex s3 O3 _ _ _. eapply does_join; [apply does_change; auto; cbn; eauto|]. intros _ s4 O4 _ _ _.
  apply does_bind, does_is; [exact O4|]. intros t C. destruct (sym ";" t); [|now apply does_ret].
  apply does_bind, does_Next; [exact O4|]. intros c s5 O5 _ _ _ _ _ _ _. now apply does_ret.
Qed.
Lemma does_init_section s : okw s -> does (parse_init_section R) s (fun _ _ => True).
Proof.
  intros O. unfold parse_init_section. apply does_bind, does_expect; [exact O|]. intros t C K.
  apply does_bind, does_Next; [exact O|]. intros c s1 O1 C1 H1 _ _ _ _ _.
  eapply does_join; [eapply does_method; [exact O1|intros X; eapply fin_parse_stmt_list; eauto|intros a s' _ _ _ X; exact X]|].
  intros l1 s2 O2 _ _ _. apply does_bind, does_is; [exact O2|]. intros t2 C2.
  apply (does_join _ _ _ _ _ _ _ (fun _ _ => True)).
  { destruct (kw "FINALIZATION" t2); [|now apply does_ret].
    apply does_bind, does_Next; [exact O2|]. intros c3 s3 O3 C3 H3 _ _ _ _ _.
    eapply does_join; [eapply does_method; [exact O3|intros X; eapply fin_parse_stmt_list; eauto|intros a s' _ _ _ X; exact X]|].
    intros l s4 O4 _ _ _. now apply does_ret. }
  intros l2 s3 O3 _ _ _. now apply does_ret.
Qed.
Lemma does_unit_end u s : okw s -> does (parse_unit_end R u) s (fun _ _ => True).
Proof.
  intros O. unfold parse_unit_end. apply does_bind, does_is; [exact O|]. intros t C.
  apply (does_join _ _ _ _ _ _ _ (fun _ _ => True)).
  { destruct (kw "INITIALIZATION" t); [|now apply does_ret]. eapply does_join; [now apply does_init_section|].
    intros sec s1 O1 _ _ _. apply does_change; auto; cbn; eauto. }
  intros _ s1 O1 _ _ _. apply does_bind, does_expect; [exact O1|]. intros t1 C1 K1.
  apply does_bind, does_expect_next; [exact O1|]. intros t2 s2 O2 _ _ _ _ _ _. now apply does_ret.
Qed.
Lemma impl_and_init uc u s p units : okw s -> ctx_path (s_heap s) uc = Some p ->
  (forall s', wider (s_heap s) (s_heap s') -> parent_units (s_heap s') uc = Some units) ->
  Forall (unit_there (s_heap s)) units -> unit_there (s_heap s) u ->
  match process_impl_and_init R uc u s with
  | OOk _ s' => okw s' /\ wider (s_heap s) (s_heap s')
  | OErr e _ => error_at text path e
  | OPanic => crashes text
  | OHang => open_string text
  | OStuck => lax = true
  end.
Proof.
  intros O CP PU TU Tu. unfold process_impl_and_init.
  assert (X : does (Bind (parse_impl_uses R uc u) (fun l => impl_scope uc u l)) s (fun mp s' => usable (s_heap s') mp)).
  { eapply does_join; [eapply does_impl_uses; eauto|]. intros us s1 O1 W1 _ _.
    apply (does_impl_scope uc u us s1 p units); [exact O1|exact (path_wide s s1 uc p O W1 CP)|now apply PU| |].
    - eapply Forall_impl; [|exact TU]. intros v. now apply w_there.
    - now apply (w_there _ _ W1). }
  unfold TermUnit.does in X. destruct (run _ s) as [mp s1|e s1| | |]; auto. destruct X as (O1 & W1 & _ & Um).
  assert (Y : does (Bind (parse_impl_body R u) (fun _ => parse_unit_end R u)) s1 (fun _ _ => True)).
  { eapply does_join; [now apply does_impl_body|]. intros _ s2 O2 _ _ _. now apply does_unit_end. }
  unfold TermUnit.does in Y. destruct (run _ s1) as [x s2|e s2| | |]; auto. destruct Y as (O2 & W2 & _).
  assert (WS : wstep (s_heap s2) (put_unit (s_heap s2) u (with_unit_map mp))).
  { apply wstep_put_unit; [now apply okw_sound in O2|apply O2|]. intros x0 E0. split; [reflexivity|]. split; [cbn; eauto|].
    intros _. cbn. eapply usable_maps; [|exact Um]. apply W2. }
  split; [now apply okw_heap|]. cbn [s_heap with_heap]. eapply wider_trans; [exact W1|]. eapply wider_trans; [exact W2|apply WS].
Qed.

(** ** A unit by itself *)
Lemma does_parse_unit uc s p : okw s -> open_ctx (s_heap s) (s_ctx s) -> ctx_path (s_heap s) uc = Some p ->
  does (parse_unit R uc) s (fun _ _ => True).
Proof.
  intros O OC CP. unfold parse_unit. eapply does_join; [eapply does_ident_and_intf_uses; eauto using mu_fuel|].
  intros u s1 O1 W1 _ [_ (name & _ & _ & (o & sec & src & Eu & _))].
  eapply does_join; [apply does_intf_body; [exact O1|eauto]|]. intros _ s2 O2 W2 _ _.
  eapply does_join; [eapply does_impl_uses; [exact O2|]|].
  { eapply path_wide; [exact O1|exact W2|]. eapply path_wide; [exact O|exact W1|exact CP]. }
  intros us s3 O3 _ _ _. eapply does_join; [now apply does_impl_body|]. intros _ s4 O4 _ _ _.
  eapply does_join; [now apply does_unit_end|]. intros _ s5 O5 _ _ _. now apply does_ret.
Qed.
End WithUnicode.
