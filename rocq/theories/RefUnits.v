(** References that are set lead to declarations of the names written: the methods of
    Units.v, in their order. *)
From Coq Require Import String List NArith Bool Arith Lia.
From Verif Require Import ListUtil Runes Token Tokenizer LexShape Ast Ext ExtMain Heap Classes MapSpec MapFacts MapMain Prog Parser Units RunFacts RefSpec RefFacts RefParse.
Import ListNotations.
Local Open Scope list_scope.
Local Open Scope prog_scope.

Section WithUnicode.
Context {U : Unicode}.

(** ** The heap *)

Lemma later_heap ns h h' : h_decls h' = h_decls h -> kept h h' -> later ns h ns h'.
Proof. intros E K. split; [exists []; now rewrite app_nil_r|]. split; [exists []; now rewrite app_nil_r|exact K]. Qed.
Lemma good_new_uses ns h o : good ns h -> u_unit o = None -> good ns (with_uses (h_uses h ++ [o]) h).
Proof.
  intros [A B C D E F K] N. constructor; cbn; auto. intros o' J. apply in_app_iff in J as [J|[<-|[]]]; [now apply F|].
  intros u X. congruence.
Qed.
Lemma good_put_uses ns h a u uo o : good ns h -> nth_error (h_uses h) a = Some o -> nth_error (h_units h) u = Some uo ->
  alike (i_name (un_ident uo)) (i_name (u_ident o)) -> good ns (uses_put_unit h a u).
Proof.
  intros [A B C D E F K] N M L. unfold uses_put_unit. rewrite N. constructor; cbn; auto.
  intros o' J. apply in_set_nth in J as [J| ->]; [now apply F|]. intros u' [= <-]. eauto.
Qed.
Lemma uses_put_same h a u : same h (uses_put_unit h a u).
Proof. unfold uses_put_unit, same. now destruct (nth_error _ _). Qed.
Lemma good_units ns h l : good ns h -> kept h (with_units l h) ->
  (forall o m, In o l -> In m (unit_m o) -> ok ns h m) -> good ns (with_units l h).
Proof.
  intros [A B C D E F K] X Y. constructor; cbn; auto.
  - intros o J u Ou. destruct (F o J u Ou) as (uo & N & L). destruct (X u uo N) as (uo' & N' & I'). exists uo'. split; [exact N'|].
    now rewrite I'.
  - intros o us u J1 J2 J3. destruct (K o us u J1 J2 J3) as (uo & N). destruct (X u uo N) as (uo' & N' & _). eauto.
Qed.
Lemma nth_set_hit {A} (l : list A) : forall n x y, nth_error l n = Some y -> nth_error (set_nth n x l) n = Some x.
Proof. induction l as [|z l IH]; intros [|n] x y; cbn; try discriminate; [reflexivity|apply IH]. Qed.
Lemma nth_set_miss {A} (l : list A) : forall n k x, k <> n -> nth_error (set_nth n x l) k = nth_error l k.
Proof. induction l as [|z l IH]; intros [|n] [|k] x N; cbn; try reflexivity; [contradiction|]. apply IH. congruence. Qed.
Lemma kept_put h u o o' : nth_error (h_units h) u = Some o -> un_ident o' = un_ident o -> kept h (with_units (set_nth u o' (h_units h)) h).
Proof.
  intros N I' k x X. cbn. destruct (Nat.eq_dec k u) as [->|Ne].
  - exists o'. split; [eapply nth_set_hit, N|congruence].
  - exists x. rewrite nth_set_miss by exact Ne. auto.
Qed.
Lemma put_unit_good ns h u g G : good ns h -> Forall (ok ns h) G -> (forall o, un_ident (g o) = un_ident o) ->
  (forall o, incl (unit_m (g o)) (unit_m o ++ G)) -> good ns (put_unit h u g) /\ later ns h ns (put_unit h u g).
Proof.
  intros Gd O I' S. unfold put_unit. destruct (nth_error (h_units h) u) as [o|] eqn:N; [|split; [exact Gd|apply later_refl]].
  pose proof (kept_put h u o (g o) N (I' o)) as Kp. split; [|now apply later_heap].
  apply good_units; [exact Gd|exact Kp|]. intros o' m J1 J2. apply in_set_nth in J1 as [J1| ->]; [now apply (g_units _ _ Gd o')|].
  apply S, in_app_iff in J2 as [J2|J2]; [|exact (proj1 (Forall_forall _ _) O _ J2)].
  apply (g_units _ _ Gd o); [now apply nth_error_In in N|exact J2].
Qed.
Lemma kept_new h o : kept h (with_units (h_units h ++ [o]) h).
Proof. intros u x N. exists x. split; [now apply nth_prefix|reflexivity]. Qed.
Lemma good_new_unit ns h o : good ns h -> unit_m o = [] -> good ns (with_units (h_units h ++ [o]) h).
Proof.
  intros Gd E. apply good_units; [exact Gd|apply kept_new|]. intros o' m J1 J2.
  apply in_app_iff in J1 as [J1|[<-|[]]]; [now apply (g_units _ _ Gd o')|]. rewrite E in J2. destruct J2.
Qed.
Lemma good_progs ns h l : good ns h -> (forall o m, In o l -> In m (program_m o) -> ok ns h m) -> good ns (with_progs l h).
Proof. intros [A B C D E F K] Y. constructor; cbn; auto. Qed.

Lemma find_name_spec {A} (nm : A -> gostring) l n x : find_name nm l n = Some x -> In x l /\ to_lower (nm x) = to_lower n.
Proof.
  induction l as [|y l IH]; cbn [find_name]; [discriminate|]. destruct (runes_equal _ _) eqn:E.
  - intros [= ->]. apply runes_equal_eq in E. split; [now left|exact E].
  - intros X. destruct (IH X) as [J L]. split; [now right|exact L].
Qed.
Definition units_in (h : heap) (us : list nat) : Prop := forall u, In u us -> exists uo, nth_error (h_units h) u = Some uo.
Lemma units_in_kept h h' us : kept h h' -> units_in h us -> units_in h' us.
Proof. intros K X u J. destruct (X u J) as (uo & N). destruct (K u uo N) as (uo' & N' & _). eauto. Qed.
Lemma assign_loop_good ns units us : forall h, good ns h -> units_in h units ->
  good ns (assign_units_loop h units us) /\ same h (assign_units_loop h units us).
Proof.
  induction us as [|a us IH]; intros h Gd X; cbn [assign_units_loop]; [split; [exact Gd|apply same_refl]|].
  cbv zeta. set (h1 := match find_name (unit_name h) units (uses_name h a) with Some u => _ | None => h end).
  assert (P : good ns h1 /\ same h h1).
  { subst h1. destruct (find_name _ _ _) as [u|] eqn:E; [|split; [exact Gd|apply same_refl]].
    split; [|apply uses_put_same]. apply find_name_spec in E as [J L]. destruct (X u J) as (uo & N).
    unfold unit_name in L. rewrite N in L. unfold uses_name in L. destruct (nth_error (h_uses h) a) as [o|] eqn:M.
    - eapply good_put_uses; eauto. now apply same_lower_alike.
    - unfold uses_put_unit. now rewrite M. }
  destruct P as [G1 [S1 S2]]. destruct (IH h1 G1) as [G2 [T1 T2]]; [intros u J; rewrite S2; now apply X|].
  split; [exact G2|]. split; congruence.
Qed.
Lemma parent_units_in ns h c us : good ns h -> parent_units h c = Some us -> units_in h us.
Proof.
  unfold parent_units. intros Gd. destruct (nth_error (h_ctxs h) c) as [[[l|p|p] x y]|]; try discriminate.
  destruct (nth_error (h_ctxs h) p) as [[[l|q|q] x' y']|] eqn:N; try discriminate. intros [= <-] u J.
  eapply (g_ctxs _ _ Gd); [eapply nth_error_In, N|reflexivity|exact J].
Qed.
Lemma assign_units_good ns h c us h' : good ns h -> assign_units h c us = Some h' -> good ns h' /\ same h h'.
Proof.
  intros Gd. unfold assign_units. destruct (parent_units h c) as [l|] eqn:E; cbn [option_map]; [|discriminate]. intros [= <-].
  apply assign_loop_good; [exact Gd|]. eapply parent_units_in; eauto.
Qed.
Lemma put_map_progs h c m : h_progs (ctx_put_map h c m) = h_progs h.
Proof. unfold ctx_put_map. now destruct (nth_error _ _). Qed.
Lemma new_map_same h : same h (fst (new_map h)).
Proof. now split. Qed.
Lemma same_trans h1 h2 h3 : same h1 h2 -> same h2 h3 -> same h1 h3.
Proof. intros [A B] [C D]. split; congruence. Qed.
Lemma import_good ns h c us h' : good ns h -> import_unit_decls h c us = Some h' -> good ns h' /\ same h h'.
Proof.
  intros Gd. unfold import_unit_decls. destruct (assign_units h c us) as [h1|] eqn:E; [|discriminate].
  destruct (assign_units_good _ _ _ _ _ Gd E) as [G1 S1]. pose proof (good_new_map ns h1 G1) as G2. pose proof (new_map_same h1) as S2.
  destruct (new_map h1) as [h2 a]. cbn [fst] in G2, S2. destruct (nth_error (h_ctxs h2) c); [|discriminate]. intros [= <-].
  split; [now apply good_put_map|]. eapply same_trans; [exact S1|]. eapply same_trans; [exact S2|apply put_map_same].
Qed.
Lemma set_all_good ns m : forall l h h', good ns h -> set_all h m l = Some h' -> good ns h' /\ later ns h ns h'.
Proof.
  induction l as [|ds l IH]; intros h h' Gd; cbn [set_all].
  - intros [= <-]. split; [exact Gd|apply later_refl].
  - pose proof (map_set_good ns h m ds Gd) as X. destruct (map_set h m ds) as [h1|h1 i|]; [| |discriminate]; destruct X as [G1 L1];
      intros E; destruct (IH _ _ G1 E) as [G2 L2]; (split; [exact G2|eapply later_trans; eassumption]).
Qed.
Lemma add_unit_good ns h c u uo : good ns h -> nth_error (h_units h) u = Some uo -> good ns (add_unit h c u) /\ same h (add_unit h c u).
Proof.
  intros Gd N. unfold add_unit. destruct (nth_error (h_ctxs h) c) as [[[us|p|p] x y]|] eqn:E; try (split; [exact Gd|apply same_refl]).
  split; [|now split]. apply good_ctxs; [exact Gd|]. intros o us' u' J1 J2 J3. apply in_set_nth in J1 as [J1| ->]; [now apply (g_ctxs _ _ Gd o us')|].
  cbn in J2. injection J2 as <-. apply in_app_iff in J3 as [J3|[<-|[]]]; [|eauto].
  eapply (g_ctxs _ _ Gd); [eapply nth_error_In, E|reflexivity|exact J3].
Qed.
Lemma new_unit_context_good ns h pc path : good ns h -> good ns (fst (new_unit_context h pc path)) /\ same h (fst (new_unit_context h pc path)).
Proof.
  intros Gd. unfold new_unit_context, new_chained. pose proof (good_new_map ns h Gd) as G1. pose proof (new_map_same h) as S1.
  destruct (new_map h) as [h1 a]. cbn [fst] in *. split; [|destruct S1; now split]. apply good_ctxs; [exact G1|].
  intros o us u J1 J2 J3. apply in_app_iff in J1 as [J1|[<-|[]]]; [|discriminate]. now apply (g_ctxs _ _ G1 o us).
Qed.

(** ** The methods *)

#[local] Opaque tied.
#[local] Hint Constants Opaque : tie.
#[local] Hint Resolve tied_next tied_Cur tied_failat tied_fail tied_crash tied_nofuel tied_runpost
  tied_validate tied_cur tied_is tied_nexttok tied_expect tied_expect_next tied_expect_or_fail
  tied_get_raw tied_get_value tied_node tied_get_node_raw tied_get_node_value tied_get_node_name tied_set t_parse_string_factor : tie.

Lemma tied_new_uses G i p : tied G (new_uses (mkUses i p None)) none.
Proof.
  apply tied_heap. intros ns c h Gd O. exists ns. split; [apply later_same; now split|].
  split; [now apply good_new_uses|constructor].
Qed.
Lemma tied_change_unit G u g : (forall o, un_ident (g o) = un_ident o) -> (forall o, incl (unit_m (g o)) (unit_m o ++ G)) ->
  tied G (change_unit u g) none.
Proof.
  intros A B. apply tied_heap. intros ns c h Gd O. destruct (put_unit_good ns h u g G Gd O A B) as [G1 L1].
  exists ns. split; [exact L1|]. split; [exact G1|constructor].
Qed.
#[local] Hint Resolve tied_new_uses : tie.

Section Methods.
Context (R : recs) (RT : recs_tied R).
#[local] Hint Resolve t_parse_type_section t_parse_const_section t_parse_var_section t_parse_threadvar_section
  t_parse_stmt_list t_parse_exported_heading t_parse_decl_sections t_parse_exports_stmts t_parse_block RT : tie.

Lemma t_parse_uses_item G : tied G parse_uses_item none.
Proof. unfold parse_uses_item; tie. Qed.
#[local] Hint Resolve t_parse_uses_item : tie.
Lemma t_set_uses G l : tied G (set_uses l) none.
Proof.
  induction l as [|a l IH]; cbn [set_uses]; [tie|]. apply tied_bind with (f := none); [|intro; exact IH].
  apply tied_heap. intros ns c h Gd O. destruct (nth_error (h_uses h) a) as [o|]; [|exact I].
  pose proof (ctx_set_good ns h c [mkDecl (u_ident o) (NUses a)] Gd) as X.
  destruct (ctx_set _ _ _) as [h'|h' i|]; [| |exact I]; destruct X as [X L]; exists ns; auto. split; [exact L|]. split; [exact X|constructor].
Qed.
#[local] Hint Resolve t_set_uses : tie.

Lemma t_parse_uses_clause G : tied G (parse_uses_clause R) none.
Proof. unfold parse_uses_clause; tie. Qed.
#[local] Hint Resolve t_parse_uses_clause : tie.
Lemma t_parse_uses_next G : tied G (parse_uses_next R) none.
Proof. unfold parse_uses_next; tie. Qed.
#[local] Hint Resolve t_parse_uses_next : tie.

Ltac unit_sub := intros ?o; unfold unit_m, intf_m, impl_m, init_m; cbn; rewrite ?app_nil_r; intros ?m; repeat (cbn [In]; rewrite ?in_app_iff); tauto.
Lemma t_parse_unit_intf_uses G u : tied G (parse_unit_intf_uses R u) none.
Proof.
  unfold parse_unit_intf_uses; tie; (apply tied_change_unit; [reflexivity|]); unit_sub.
Qed.
#[local] Hint Resolve t_parse_unit_intf_uses : tie.
Lemma t_intf_decls_step G l : tied (flat_map intfdecl_m l ++ G) (intf_decls_step R l)
  (fun r => match r with inl y => flat_map intfdecl_m y | inr y => flat_map intfdecl_m y end).
Proof.
  unfold intf_decls_step; tie;
    match goal with |- tied _ (Ret ?x) _ => match x with context [or_nil ?s] => destruct s; cbn [or_nil]; tie end end.
Qed.
Lemma nonempty_m {A} (f : A -> list mention) l : opt (flat_map f) (nonempty l) = flat_map f l.
Proof. now destruct l. Qed.
Lemma t_parse_unit_intf_body G u : tied G (parse_unit_intf_body R u) none.
Proof.
  unfold parse_unit_intf_body. eapply tied_bind; [lp t_intf_decls_step|]. intros l. cbv beta iota.
  apply tied_heap. intros ns c h Gd O. cbv zeta.
  set (g := fun o => with_intf (option_map (fun s => mkIntf (is_uses s) (nonempty l)) (un_intf o)) o).
  destruct (put_unit_good ns h u g _ Gd O) as [G1 L1]; [reflexivity| |].
  { intros o. subst g. unfold unit_m, with_intf; cbn [un_intf un_impl un_init]. destruct (un_intf o) as [s|]; cbn [option_map opt].
    - unfold intf_m; cbn [is_decls]. rewrite nonempty_m. intros m. repeat (cbn [In]; rewrite ?in_app_iff). tauto.
    - intros m. repeat (cbn [In]; rewrite ?in_app_iff). tauto. }
  set (h1 := put_unit h u g) in *. pose proof (good_new_map ns h1 G1) as G2. pose proof (new_map_same h1) as S2.
  destruct (new_map h1) as [h2 a]. cbn [fst] in *. destruct (set_all h2 _ _) as [h3|] eqn:E; [|exact I].
  destruct (set_all_good _ _ _ _ _ G2 E) as [G3 L3].
  destruct (put_unit_good ns h3 u (with_unit_map (DImpl a)) [] G3) as [G4 L4]; [constructor|reflexivity| |].
  { intros o m. unfold unit_m; cbn. rewrite app_nil_r. auto. }
  exists ns. split; [|split; [exact G4|constructor]].
  eapply later_trans; [exact L1|]. eapply later_trans; [apply later_same; exact S2|]. eapply later_trans; eassumption.
Qed.
#[local] Hint Resolve t_parse_unit_intf_body : tie.
Lemma t_process_intf_body G uc u : tied G (process_intf_body R uc u) none.
Proof.
  unfold process_intf_body. apply tied_bind with (f := none); [|intro; tie].
  apply tied_heap. intros ns c h Gd O.
  destruct (unit_intf_uses h u) as [us|]; [|exact I]. destruct (nth_error (h_units h) u) as [o|]; [|exact I].
  destruct (import_unit_decls h uc us) as [h1|] eqn:E; [|exact I]. destruct (import_good _ _ _ _ _ Gd E) as [G1 S1].
  pose proof (ctx_set_good ns h1 uc [mkDecl (un_ident o) (NUnit u)] G1) as X.
  destruct (ctx_set _ _ _) as [h'|h' i|]; [| |exact I]; destruct X as [X L]; exists ns;
    (split; [eapply later_trans; [apply later_same; exact S1|exact L]|]); [split; [exact X|constructor]|exact X].
Qed.
#[local] Hint Resolve t_process_intf_body : tie.
Lemma t_stack G uc : tied G (OnHeap (fun _ h => match ctx_stack h uc with Some (h1, _) => HOk tt h1 | None => HPanic end)) none.
Proof.
  apply tied_heap. intros ns c h Gd O. unfold ctx_stack. destruct (nth_error (h_ctxs h) uc) as [o|]; [|exact I].
  unfold new_chained. pose proof (good_new_map ns h Gd) as G1. pose proof (new_map_same h) as S1.
  destruct (new_map h) as [h1 a]. cbn [fst] in *. exists ns. split; [|split; [now apply good_put_map|constructor]].
  apply later_same. eapply same_trans; [exact S1|apply put_map_same].
Qed.
#[local] Hint Resolve t_stack : tie.
Lemma tied_change_then G u g {B} (k : unit -> prog B) f : (forall o, un_ident (g o) = un_ident o) ->
  (forall o, incl (unit_m (g o)) (unit_m o ++ G)) -> (forall x, tied G (k x) f) -> tied G (Bind (change_unit u g) k) f.
Proof. intros A0 B0 K. eapply tied_bind; [now apply tied_change_unit|]. intros x. apply K. Qed.
Ltac change_unit_tac := apply tied_change_then; [reflexivity|unit_sub|intro].
Lemma t_parse_impl_uses G uc u : tied G (parse_impl_uses R uc u) none.
Proof.
  unfold parse_impl_uses; tie; change_unit_tac; tie.
Qed.
#[local] Hint Resolve t_parse_impl_uses : tie.
Ltac impl_tac := apply tied_change_then; [reflexivity|
  intros ?o; unfold unit_m, with_impl; cbn [un_intf un_impl un_init]; destruct (un_impl _); cbn [option_map opt];
  unfold impl_m; cbn [im_decls im_exports]; intros ?m; repeat (cbn [In]; rewrite ?in_app_iff); tauto|intro].
Lemma t_parse_impl_body G u : tied G (parse_impl_body R u) none.
Proof.
  unfold parse_impl_body. tie. impl_tac. tie. impl_tac. tie.
Qed.
#[local] Hint Resolve t_parse_impl_body : tie.
Lemma t_parse_init_section G : tied G (parse_init_section R) init_m.
Proof.
  unfold parse_init_section; tie; (apply tied_ret; unfold init_m; cbn [in_init in_final]; rewrite ?nonempty_m; sub).
Qed.
#[local] Hint Resolve t_parse_init_section : tie.
Lemma t_parse_unit_end G u : tied G (parse_unit_end R u) none.
Proof.
  unfold parse_unit_end; tie. apply tied_change_then; [reflexivity|unit_sub|intro]. tie.
Qed.
#[local] Hint Resolve t_parse_unit_end : tie.
Lemma t_impl_scope G uc u us : tied G (impl_scope uc u us) none.
Proof.
  unfold impl_scope. apply tied_heap. intros ns c h Gd O. destruct (assign_units h uc us) as [h1|] eqn:E; [|exact I].
  destruct (assign_units_good _ _ _ _ _ Gd E) as [G1 S1]. cbv zeta.
  destruct (nth_error (h_ctxs h1) uc) as [co|]; [|exact I]. destruct (nth_error (h_units h1) u) as [uo|]; [|exact I].
  pose proof (good_new_map ns h1 G1) as G2. pose proof (new_map_same h1) as S2. destruct (new_map h1) as [h2 a]. cbn [fst] in *.
  set (m := DComposite [DImpl a; un_map uo]).
  destruct (put_unit_good ns h2 u (with_unit_map m) [] G2) as [G3 L3]; [constructor|reflexivity| |].
  { intros o x. unfold unit_m; cbn. rewrite app_nil_r. auto. }
  exists ns. split; [|split; [apply good_put_map; exact G3|constructor]].
  eapply later_trans; [apply later_same; eapply same_trans; [exact S1|exact S2]|]. eapply later_trans; [exact L3|]. apply later_same, put_map_same.
Qed.
#[local] Hint Resolve t_impl_scope : tie.
Lemma t_port G u t : tied G (change_unit u (with_port (Some (value t)))) none.
Proof. apply tied_change_unit; [reflexivity|unit_sub]. Qed.
#[local] Hint Resolve t_port : tie.
#[local] Transparent tied.

(** ** The unit that is made *)

Definition unit_at (h : heap) (u : nat) : Prop := exists uo, nth_error (h_units h) u = Some uo.
Definition makes_unit (p : prog nat) : Prop := forall ns s, Inv ns s ->
  match run p s with
  | OOk u s' => exists ns', later ns (s_heap s) ns' (s_heap s') /\ Inv ns' s' /\ unit_at (s_heap s') u
  | _ => True
  end.
Definition keeps_unit (u : nat) (p : prog nat) : Prop := forall ns s, Inv ns s -> unit_at (s_heap s) u ->
  match run p s with
  | OOk u s' => exists ns', later ns (s_heap s) ns' (s_heap s') /\ Inv ns' s' /\ unit_at (s_heap s') u
  | _ => True
  end.
Lemma unit_at_later ns h ns' h' u : later ns h ns' h' -> unit_at h u -> unit_at h' u.
Proof. intros (_ & _ & K) (uo & N). destruct (K u uo N) as (uo' & N' & _). exists uo'. exact N'. Qed.
Lemma makes_bind {A} (p : prog A) k : tied [] p none -> (forall a, makes_unit (k a)) -> makes_unit (Bind p k).
Proof.
  intros T K ns s V. cbn [run]. specialize (T ns s V (Forall_nil _)). destruct (run p s) as [a s1|e s1| | |]; auto.
  destruct T as (n1 & L1 & V1 & _). specialize (K a n1 s1 V1). destruct (run (k a) s1) as [u s2|e s2| | |]; auto.
  destruct K as (n2 & L2 & K). exists n2. split; [eapply later_trans; eassumption|exact K].
Qed.
Lemma keeps_bind {A} u (p : prog A) k : tied [] p none -> (forall a, keeps_unit u (k a)) -> keeps_unit u (Bind p k).
Proof.
  intros T K ns s V X. cbn [run]. specialize (T ns s V (Forall_nil _)). destruct (run p s) as [a s1|e s1| | |]; auto.
  destruct T as (n1 & L1 & V1 & _). specialize (K a n1 s1 V1 (unit_at_later _ _ _ _ _ L1 X)). destruct (run (k a) s1) as [u' s2|e s2| | |]; auto.
  destruct K as (n2 & L2 & K). exists n2. split; [eapply later_trans; eassumption|exact K].
Qed.
Lemma keeps_ret u : keeps_unit u (Ret u).
Proof. intros ns s V X. cbn [run]. exists ns. split; [apply later_refl|]. auto. Qed.
Lemma makes_then p k : makes_unit p -> (forall u, keeps_unit u (k u)) -> makes_unit (Bind p k).
Proof.
  intros T K ns s V. cbn [run]. specialize (T ns s V). destruct (run p s) as [a s1|e s1| | |]; auto.
  destruct T as (n1 & L1 & V1 & X). specialize (K a n1 s1 V1 X). destruct (run (k a) s1) as [u s2|e s2| | |]; auto.
  destruct K as (n2 & L2 & K). exists n2. split; [eapply later_trans; eassumption|exact K].
Qed.
Lemma makes_new path i : makes_unit (new_unit path i).
Proof.
  intros ns s [V1 V2]. cbn [run new_unit]. exists ns. split; [apply later_heap; [reflexivity|apply kept_new]|].
  split; [split; [now apply good_new_unit|exact V2]|]. eexists. cbn. rewrite nth_error_app2 by lia. now rewrite Nat.sub_diag.
Qed.
#[local] Opaque tied.
Lemma makes_unit_ident uc : makes_unit (parse_unit_ident uc).
Proof.
  unfold parse_unit_ident. apply makes_bind; [tie|intro]. apply makes_bind; [tie|intro t]. apply makes_bind; [|intro path].
  - apply tied_pure. intros c h. now destruct (ctx_path h uc).
  - apply makes_then; [apply makes_new|]. intros u. apply keeps_bind; [tie|intro t1]. apply keeps_bind; [|intro t2].
    + tie.
    + apply keeps_bind; [tie|intro]. apply keeps_ret.
Qed.
Lemma makes_head uc : makes_unit (parse_ident_and_intf_uses R uc).
Proof.
  unfold parse_ident_and_intf_uses. apply makes_then; [apply makes_unit_ident|]. intros u. apply keeps_bind; [tie|intro]. apply keeps_ret.
Qed.
Lemma makes_parse_unit uc : makes_unit (parse_unit R uc).
Proof.
  unfold parse_unit. apply makes_then; [apply makes_head|]. intros u.
  do 4 (apply keeps_bind; [tie|intro]). apply keeps_ret.
Qed.
#[local] Transparent tied.
(** A method at the end of which nothing is known of its result *)
Lemma tied_run {A} (p : prog A) ns s : tied [] p none -> Inv ns s ->
  match run p s with
  | OOk _ s' => exists ns', later ns (s_heap s) ns' (s_heap s') /\ Inv ns' s'
  | _ => True
  end.
Proof. intros T V. specialize (T ns s V (Forall_nil _)). destruct (run p s); auto. destruct T as (n1 & L1 & V1 & _). eauto. Qed.
#[local] Opaque tied.
Lemma process_impl_tied uc u ns s : Inv ns s ->
  match process_impl_and_init R uc u s with
  | OOk _ s' => exists ns', later ns (s_heap s) ns' (s_heap s') /\ Inv ns' s'
  | _ => True
  end.
Proof.
  intros V. unfold process_impl_and_init.
  assert (T1 : tied [] (l <- parse_impl_uses R uc u ;; impl_scope uc u l) none) by tie.
  pose proof (tied_run _ ns s T1 V) as X. destruct (run _ s) as [m s1|e s1| | |]; auto. destruct X as (n1 & L1 & V1).
  assert (T2 : tied [] (parse_impl_body R u ;;; parse_unit_end R u) none) by tie.
  pose proof (tied_run _ n1 s1 T2 V1) as Y. destruct (run _ s1) as [x s2|e s2| | |]; auto. destruct Y as (n2 & L2 & [V2 W2]).
  destruct (put_unit_good n2 (s_heap s2) u (with_unit_map m) [] V2) as [G3 L3]; [constructor|reflexivity| |].
  { intros o y. unfold unit_m; cbn. rewrite app_nil_r. auto. }
  exists n2. split; [eapply later_trans; [exact L1|eapply later_trans; [exact L2|exact L3]]|]. split; [exact G3|exact W2].
Qed.

(** ** Several parsers *)

Definition rsound {A} (ns : list gostring) (h : heap) (r : result A) (Q : A -> list gostring -> heap -> Prop) : Prop :=
  match r with ROk a h' => exists ns', later ns h ns' h' /\ good ns' h' /\ Q a ns' h' | _ => True end.
Definition stable {A} (Q : A -> list gostring -> heap -> Prop) : Prop :=
  forall a ns h ns' h', later ns h ns' h' -> Q a ns h -> Q a ns' h'.
Lemma rsound_bind {A B} ns h (r : result A) (k : A -> heap -> result B) Q Q' : rsound ns h r Q ->
  (forall a ns' h', good ns' h' -> Q a ns' h' -> later ns h ns' h' -> rsound ns' h' (k a h') Q') -> rsound ns h (rbind r k) Q'.
Proof.
  intros X K. destruct r as [a h'|e h'| | |]; cbn [rbind rsound] in *; auto. destruct X as (n1 & L1 & G1 & Q1).
  specialize (K a n1 h' G1 Q1 L1). destruct (k a h') as [b h2|e h2| | |]; cbn [rsound] in *; auto.
  destruct K as (n2 & L2 & K). exists n2. split; [eapply later_trans; eassumption|exact K].
Qed.
Lemma each_of_sound {A B} (f : A -> heap -> result B) (P : A -> list gostring -> heap -> Prop) (Q : B -> list gostring -> heap -> Prop) :
  stable P -> stable Q -> (forall a ns h, good ns h -> P a ns h -> rsound ns h (f a h) Q) ->
  forall l ns h, good ns h -> Forall (fun a => P a ns h) l -> rsound ns h (each_of f l h) (fun bs ns' h' => Forall (fun b => Q b ns' h') bs).
Proof.
  intros SP SQ F. induction l as [|a l IH]; intros ns h Gd Pl; cbn [each_of].
  - exists ns. split; [apply later_refl|]. auto.
  - inversion_clear Pl as [|? ? Pa Pr]. eapply rsound_bind; [now apply F|]. intros b n1 h1 G1 Q1 L1.
    eapply rsound_bind; [apply IH; [exact G1|]|].
    + eapply Forall_impl; [|exact Pr]. intros x. now apply SP.
    + intros bs n2 h2 G2 Q2 L2. exists n2. split; [apply later_refl|]. split; [exact G2|]. constructor; [|exact Q2]. eapply SQ; eassumption.
Qed.
Definition post_ok (post : list (nat * gostring)) (ns : list gostring) : Prop := forall c n, In (c, n) post -> nth_error ns c = Some n.
Definition up_ok (p : uparser) (ns : list gostring) (h : heap) : Prop := post_ok (up_post p) ns /\ unit_at h (up_unit p).
Lemma post_ok_later post ns h ns' h' : later ns h ns' h' -> post_ok post ns -> post_ok post ns'.
Proof. intros [(l & ->) _] X c n J. apply nth_prefix. now apply X. Qed.
Lemma up_ok_stable : stable up_ok.
Proof. intros p ns h ns' h' L [X Y]. split; [eapply post_ok_later; eassumption|eapply unit_at_later; eassumption]. Qed.

Lemma unit_contexts_good sep pc : forall uses ns h, good ns h ->
  good ns (snd (unit_contexts sep pc uses h)) /\ same h (snd (unit_contexts sep pc uses h)).
Proof.
  induction uses as [|a uses IH]; intros ns h Gd; cbn [unit_contexts]; [split; [exact Gd|apply same_refl]|].
  cbv zeta. destruct (runes_equal _ _); [now apply IH|].
  match goal with |- context [new_unit_context h pc ?p] => destruct (new_unit_context_good ns h pc p Gd) as [G1 S1]; destruct (new_unit_context h pc p) as [h1 c] end.
  cbn [fst] in *. destruct (IH ns h1 G1) as [G2 S2]. destruct (unit_contexts sep pc uses h1) as [l h2]. cbn [snd] in *.
  split; [exact G2|eapply same_trans; eassumption].
Qed.
Lemma load_unit_sound files pc cp ns h : good ns h -> rsound ns h (load_unit R files pc cp h) up_ok.
Proof.
  intros Gd. unfold load_unit. destruct cp as [uc path]. destruct (files path) as [text|]; [|exact I].
  assert (M : makes_unit (Next ;;; parse_ident_and_intf_uses R uc)).
  { apply makes_bind; [apply tied_next|]. intros _. apply makes_head. }
  set (s0 := mkPst (new_tokenizer text false false) None uc [] h).
  assert (V : Inv ns s0) by (split; [exact Gd|intros ? ? []]). specialize (M ns s0 V).
  destruct (run _ s0) as [u s|e s| | |]; cbn [on_parser rbind rsound]; auto. destruct M as (n1 & L1 & [V1 W1] & (uo & N)).
  destruct (add_unit_good n1 (s_heap s) pc u uo V1 N) as [G2 [S2 T2]].
  exists n1. split; [eapply later_trans; [exact L1|apply later_same; now split]|]. split; [exact G2|].
  split; [exact W1|]. exists uo. cbn. now rewrite T2.
Qed.
Lemma intf_of_sound p ns h : good ns h -> up_ok p ns h -> rsound ns h (intf_of R p h) up_ok.
Proof.
  intros Gd [P X]. unfold intf_of.
  assert (T : tied [] (process_intf_body R (up_uc p) (up_unit p)) none) by tie.
  pose proof (tied_run _ ns (up_pst p h) T) as Y. assert (V : Inv ns (up_pst p h)) by (split; [exact Gd|exact P]). specialize (Y V).
  destruct (run _ _) as [u s|e s| | |]; cbn [on_parser rbind rsound]; auto. destruct Y as (n1 & L1 & [V1 W1]).
  exists n1. split; [exact L1|]. split; [exact V1|]. split; [exact W1|]. eapply unit_at_later; [exact L1|exact X].
Qed.
Lemma impl_of_sound p ns h : good ns h -> up_ok p ns h -> rsound ns h (impl_of R p h) up_ok.
Proof.
  intros Gd [P X]. unfold impl_of.
  assert (V : Inv ns (up_pst p h)) by (split; [exact Gd|exact P]). pose proof (process_impl_tied (up_uc p) (up_unit p) ns _ V) as Y.
  destruct (process_impl_and_init _ _ _ _) as [u s|e s| | |]; cbn [on_parser rbind rsound]; auto. destruct Y as (n1 & L1 & [V1 W1]).
  exists n1. split; [exact L1|]. split; [exact V1|]. split; [exact W1|]. eapply unit_at_later; [exact L1|exact X].
Qed.
Lemma name_units_sound uses m : forall us ns h, good ns h -> units_in h us ->
  rsound ns h (name_units uses m us h) (fun _ _ _ => True).
Proof.
  induction us as [|u us IH]; intros ns h Gd X; cbn [name_units].
  - exists ns. split; [apply later_refl|]. auto.
  - destruct (find_name (uses_name h) uses (unit_name h u)) as [a|] eqn:E; [|exact I]. cbv zeta.
    apply find_name_spec in E as [J L]. destruct (X u (or_introl eq_refl)) as (uo & N).
    assert (G1 : good ns (uses_put_unit h a u)).
    { unfold unit_name in L. rewrite N in L. unfold uses_name in L. destruct (nth_error (h_uses h) a) as [o|] eqn:M.
      - eapply good_put_uses; eauto. apply same_lower_alike. congruence.
      - unfold uses_put_unit. now rewrite M. }
    pose proof (uses_put_same h a u) as S1. set (h1 := uses_put_unit h a u) in *.
    destruct (nth_error (h_uses h1) a) as [o|]; [|exact I].
    pose proof (map_set_good ns h1 m [mkDecl (u_ident o) (NUses a)] G1) as Y.
    assert (K : forall h2, good ns h2 /\ later ns h1 ns h2 -> rsound ns h (name_units uses m us h2) (fun _ _ _ => True)).
    { intros h2 [G2 L2]. assert (L3 : later ns h ns h2) by (eapply later_trans; [apply later_same; exact S1|exact L2]).
      specialize (IH ns h2 G2). destruct (name_units uses m us h2) as [x h3|e h3| | |]; cbn [rsound] in *; auto.
      destruct IH as (n3 & L4 & IH); [apply (units_in_kept h); [apply L3|intros v Jv; apply X; now right]|].
      exists n3. split; [eapply later_trans; eassumption|exact IH]. }
    destruct (map_set _ _ _) as [h2|h2 i|]; [now apply K|now apply K|exact I].
Qed.
Lemma sort_units_in {A} (name : A -> gostring) uses order topo l sorted x : sort_units name uses order topo l = Some sorted -> In x sorted -> In x l.
Proof.
  unfold sort_units. destruct (topo _ _) as [names|]; [|discriminate]. intros [= <-] J. apply in_flat_map in J as (n & _ & J).
  unfold unit_of_name in J. destruct (find _ (rev l)) as [y|] eqn:F; [|destruct J]. destruct J as [->|[]].
  apply find_some in F as [F _]. now apply in_rev.
Qed.
Lemma rsound_weak {A} ns h (r : result A) Q : rsound ns h r Q -> rsound ns h r (fun _ _ _ => True).
Proof. destruct r; cbn [rsound]; auto. intros (n & L & Gd & _). eauto. Qed.
Lemma rsound_later {A} ns h ns' h' (r : result A) Q : later ns h ns' h' -> rsound ns' h' r Q -> rsound ns h r Q.
Proof. intros L. destruct r; cbn [rsound]; auto. intros (n & L' & K). exists n. split; [eapply later_trans; eassumption|exact K]. Qed.
Lemma load_units_sound files sep order topo pc pa uses ns h : good ns h ->
  rsound ns h (load_units R files sep order topo pc pa uses h) (fun _ _ _ => True).
Proof.
  intros Gd. unfold load_units. destruct (unit_contexts_good sep pc uses ns h Gd) as [G1 S1].
  destruct (unit_contexts sep pc uses h) as [cps h1]. cbn [snd] in *.
  apply (rsound_later ns h ns h1); [now apply later_same|].
  eapply rsound_bind.
  { apply (each_of_sound (load_unit R files pc) (fun _ _ _ => True) up_ok); [now intros ?|apply up_ok_stable| |exact G1|].
    - intros cp n0 h0 G0 _. now apply load_unit_sound.
    - clear. induction cps; auto. }
  intros ps n2 h2 G2 Q2 L2. destruct (sort_units _ _ _ _ ps) as [sorted|] eqn:So; [|exact I].
  eapply rsound_bind.
  { apply (each_of_sound (intf_of R) up_ok up_ok); [apply up_ok_stable|apply up_ok_stable| |exact G2|].
    - intros. now apply intf_of_sound.
    - apply Forall_forall. intros p J. eapply sort_units_in in J; [|exact So]. now apply (proj1 (Forall_forall _ _) Q2). }
  intros sorted1 n3 h3 G3 Q3 L3. eapply rsound_bind.
  { apply (each_of_sound (impl_of R) up_ok up_ok); [apply up_ok_stable|apply up_ok_stable| |exact G3|exact Q3].
    intros. now apply impl_of_sound. }
  intros _ n4 h4 G4 _ L4.
  pose proof (good_new_map n4 h4 G4) as G5. pose proof (new_map_same h4) as S5. destruct (new_map h4) as [h5 um]. cbn [fst] in *.
  assert (L5 : later n4 h4 n4 h5) by (now apply later_same). apply (rsound_later n4 h4 n4 h5); [exact L5|].
  eapply rsound_bind.
  { apply name_units_sound; [exact G5|]. intros u J. apply in_map_iff in J as (p & <- & J).
    assert (up_ok p n4 h5) as [_ X]; [|exact X].
    eapply up_ok_stable; [exact L5|]. eapply up_ok_stable; [exact L4|]. eapply up_ok_stable; [exact L3|].
    now apply (proj1 (Forall_forall _ _) Q2). }
  intros _ n6 h6 G6 _ L6. pose proof (good_new_map n6 h6 G6) as G7. pose proof (new_map_same h6) as S7.
  destruct (new_map h6) as [h7 local]. cbn [fst] in *.
  destruct (nth_error (h_ctxs h7) pc) as [co|]; [|exact I]. destruct (nth_error (h_progs h7) pa) as [po|] eqn:Np; [|exact I]. cbv zeta.
  match goal with |- context [ctx_put_map h7 pc ?m] => pose proof (good_put_map n6 h7 pc m G7) as G8; pose proof (put_map_same h7 pc m) as S8;
    assert (E8 : h_progs (ctx_put_map h7 pc m) = h_progs h7) by apply put_map_progs; set (h8 := ctx_put_map h7 pc m) in * end.
  match goal with |- context [map_set ?h ?m ?l] => set (h9 := h); assert (G9 : good n6 h9);
    [|pose proof (map_set_good n6 h9 m l G9) as X; destruct (map_set h9 m l) as [h10|h10 i|]; [| |exact I]] end.
  - apply good_progs; [exact G8|]. intros o m J1 J2. apply in_set_nth in J1 as [J1| ->]; [now apply (g_progs _ _ G8 o)|].
    apply (g_progs _ _ G8 po); [rewrite E8; now apply nth_error_In in Np|exact J2].
  - destruct X as [X Y]. exists n6. split; [|auto].
    eapply later_trans; [apply later_same; eapply same_trans; [exact S7|exact S8]|exact Y].
  - destruct X as [X Y]. exists n6. split; [|auto].
    eapply later_trans; [apply later_same; eapply same_trans; [exact S7|exact S8]|exact Y].
Qed.

(** ** The program *)

Lemma t_parse_program_head G pc : tied G (parse_program_head R pc) none.
Proof.
  unfold parse_program_head. tie. apply tied_bind with (f := none); [|intro; tie].
  apply tied_heap. intros ns c h Gd O. destruct (ctx_path h pc) as [p|]; [|exact I].
  exists ns. split; [apply later_same; now split|]. split; [|constructor]. apply good_progs; [exact Gd|].
  intros o m J1 J2. apply in_app_iff in J1 as [J1|[<-|[]]]; [now apply (g_progs _ _ Gd o)|destruct J2].
Qed.
Lemma t_parse_program_rest G pa l : tied G (parse_program_rest R pa l) none.
Proof.
  unfold parse_program_rest. eapply tied_bind; [apply t_parse_block; exact RT|intros b]. apply tied_bind with (f := none); [|intro; tie].
  apply tied_heap. intros ns c h Gd O. destruct (nth_error (h_progs h) pa) as [p|] eqn:N; [|exact I].
  exists ns. split; [apply later_same; now split|]. split; [|constructor]. apply good_progs; [exact Gd|].
  intros o m J1 J2. apply in_set_nth in J1 as [J1| ->]; [now apply (g_progs _ _ Gd o)|].
  apply (proj1 (Forall_forall _ _) O). apply in_app_iff. left. exact J2.
Qed.
#[local] Hint Resolve t_parse_program_head t_parse_program_rest : tie.
Lemma parse_program_at_sound files sep order topo pc s ns : Inv ns s ->
  rsound ns (s_heap s) (parse_program_at R files sep order topo pc s) (fun _ _ _ => True).
Proof.
  intros V. unfold parse_program_at. pose proof (tied_run _ ns s (t_parse_program_head [] pc) V) as X.
  destruct (run _ s) as [[pa l] s1|e s1| | |]; cbn [on_parser rbind]; try exact I. destruct X as (n1 & L1 & V1).
  apply (rsound_later ns (s_heap s) n1 (s_heap s1)); [exact L1|].
  eapply rsound_bind with (Q := fun _ _ _ => True).
  { destruct l as [us|]; [apply load_units_sound; apply V1|]. exists n1. split; [apply later_refl|]. split; [apply V1|exact I]. }
  intros _ n2 h2 G2 _ L2.
  assert (V2 : Inv n2 (with_heap h2 s1)) by (split; [exact G2|eapply post_ok_later; [exact L2|exact (proj2 V1)]]).
  pose proof (tied_run _ n2 _ (t_parse_program_rest [] pa l) V2) as Y.
  destruct (run _ _) as [r s3|e s3| | |]; cbn [on_parser rbind]; try exact I. destruct Y as (n3 & L3 & V3).
  exists n3. split; [exact L3|]. split; [apply V3|exact I].
Qed.
Lemma good_well_tied ns h : good ns h -> well_tied h.
Proof.
  intros [A B C D E F K].
  assert (W : forall m, ok ns h m -> refers_well h m).
  { intros [t|i od|i j] O; cbn [ok refers_well] in *; auto.
    - intros d N. destruct (B _ _ N) as (n & N1 & N2). rewrite O in N1. now injection N1 as <-.
    - intros d ->. exact O. }
  constructor; eauto.
Qed.
Lemma good_program_context path : good [] (fst (new_program_context heap0 path)).
Proof.
  unfold new_program_context, new_chained. pose proof (good_new_map [] heap0 good_heap0) as G1.
  destruct (new_map heap0) as [h1 a]. cbn [fst] in *. apply good_ctxs; [exact G1|].
  intros o us u J1 J2 J3. apply in_app_iff in J1 as [J1|[<-|[]]]; [now apply (g_ctxs _ _ G1 o us)|]. injection J2 as <-. destruct J3.
Qed.
Lemma parse_program_well files sep order topo path pa pc h :
  parse_program R files sep order topo path = ROk (pa, pc) h -> well_tied h.
Proof.
  unfold parse_program. destruct (files path) as [text|]; [|discriminate]. pose proof (good_program_context path) as G0.
  destruct (new_program_context heap0 path) as [h0 c]. cbn [fst] in G0.
  set (s0 := mkPst _ None c [] h0). assert (V : Inv [] s0) by (split; [exact G0|intros ? ? []]).
  pose proof (tied_run _ [] s0 (tied_next []) V) as X. destruct (run Next s0) as [x s|e s| | |]; try discriminate.
  destruct X as (n1 & L1 & V1). pose proof (parse_program_at_sound files sep order topo c s n1 V1) as Y.
  destruct (parse_program_at _ _ _ _ _ _ _) as [pa' h'|e h'| | |]; cbn [rbind]; try discriminate. intros [= _ _ <-].
  destruct Y as (n2 & _ & G2 & _). eapply good_well_tied, G2.
Qed.
End Methods.

End WithUnicode.
