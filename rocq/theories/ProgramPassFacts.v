(** The passes over the units of a program, one unit at a time. *)
From Coq Require Import String List Arith NArith Bool Lia.
From Verif Require Import ListUtil Runes UnicodeFacts Token Tokenizer LexSpec LexShape LexFacts LexMain Ext ExtMain Ast Heap Classes MapSpec MapFacts MapMain Prog Parser ParseSpec RunFacts
  ExprSpec WpFacts ExprFacts StmtSpec GrowFacts StmtFacts EvolveFacts EvolveParse Units UnitSpec UsesMain TermUnitSpec DeclSpec ScopeFacts DeclFacts TypeFacts SectionFacts DeclMain TermUnit UnitTextSpec UnitTextFacts UnitBodyFacts UnitTextMain ProgramTextSpec ProgramTextFacts ProgramLinkFacts.
Import ListNotations.
Local Open Scope list_scope.
Local Open Scope prog_scope.

Section WithUnicode.
Context {U : Unicode} {UOK : UnicodeOk U}.
Notation words := (list (ttype * gostring)).
Ltac fl := cbv beta iota; repeat (match goal with
  | |- wp (Bind (Ret _) _) _ _ => apply wp_ret_bind
  | |- wp (Bind (Bind _ _) _) _ _ => apply wp_assoc
  end; cbv beta iota).

(** ** More about scopes *)
Lemma beside_le L sc : scope_le (beside L sc) sc.
Proof.
  unfold scope_le, beside. cbn. repeat match goal with |- _ /\ _ => split end; auto; now intros n [].
Qed.
Lemma in_scope_beside text sc s ws h' o ms L : in_scope text sc s ws -> nth_error (h_ctxs (s_heap s)) (s_ctx s) = Some o ->
  h_maps h' = h_maps (s_heap s) ++ [[]] -> h_decls h' = h_decls (s_heap s) -> better (s_heap s) h' ->
  nth_error (h_ctxs h') (s_ctx s) = Some (mkCtx (cx_kind o) (cx_path o) (DComposite ([DImpl (length (h_maps (s_heap s))); cx_map o] ++ rev ms))) ->
  Forall2 (gives h') ms L -> in_scope text (beside L sc) (with_heap h' s) ws.
Proof.
  intros I Eo Em Ed Be Ec G. set (h := s_heap s) in *. set (c := s_ctx s) in *. set (b := length (h_maps h)) in *.
  assert (K : forall p, cx_kind o <> KStack p) by (destruct (sc_context _ _ _ _ I) as (o1 & E1 & K); fold h c in E1; rewrite Eo in E1; injection E1 as <-; exact K).
  assert (Nb : nth_error (h_maps h') b = Some []) by (rewrite Em; apply nth_app_new).
  assert (Go : forall n, ctx_get h c n = dget h (cx_map o) n) by (intros n; now apply ctx_get_plain).
  assert (To : forall n, dget h (cx_map o) n <> LPanic) by (intros n; rewrite <- Go; apply (sc_total _ _ _ _ I)).
  assert (Rd : forall n, dget h' (cx_map o) n = dget h (cx_map o) n).
  { intros n. apply dget_reads. intros a J. unfold impl_get. rewrite Em, nth_error_app1; [reflexivity|]. eapply reads_total; eauto. }
  assert (Get : forall n, ctx_get h' c n = match ctx_get h c n with LNil => first_found (map (fun m => dget h' m n) (rev ms)) | r => r end).
  { intros n. rewrite (ctx_get_plain h' c _ n Ec K). cbn [cx_map app]. rewrite dget_composite. cbn [map first_found dget]. unfold impl_get at 1. rewrite Nb. cbn [mget].
    rewrite Rd, Go. now destruct (dget h (cx_map o) n). }
  pose proof (gives_denotes h' ms L G) as Dn.
  assert (Dr : forall e, deref h' e = deref h e) by (intros [e|e]; cbn; rewrite ?Ed; reflexivity).
  assert (Rs : forall n e x, resolves h c n e x -> resolves h' c n e x).
  { intros n e x (E & y & D & Y). unfold resolves. rewrite Get, E, Dr. eauto. }
  assert (Old : forall n, ctx_get h c n = LNil -> denotes L n = None -> ctx_get h' c n = LNil).
  { intros n X E. specialize (Dn n). rewrite E in Dn. now rewrite Get, X. }
  assert (New : forall n d, ctx_get h c n = LNil -> denotes L n = Some d -> exists q d', resolves h' c n q (d_node d') /\ alike d d').
  { intros n d X E. specialize (Dn n). rewrite E in Dn. destruct Dn as (q & d' & F & D & A). exists q, d'. split; [|exact A].
    split; [now rewrite Get, X|]. exists d'. split; [exact D|reflexivity]. }
  destruct I as [A1 A2 A3 A4 A5 A6 A7 A8 A9 A10 A11]. unfold senv_of in *. fold h c in A2, A3, A4, A5, A6, A7, A8, A9, A10.
  constructor; cbn [beside known free undeclared ordinal names a_label no_label plain_name type_name member with_heap s_heap s_ctx]; unfold senv_of; cbn [with_heap s_heap s_ctx]; fold c.
  - eexists. split; [exact Ec|exact K].
  - intros n. rewrite Get. specialize (Dn n). specialize (A2 n). destruct (ctx_get h c n); [|discriminate|congruence].
    destruct (denotes L n); [destruct Dn as (q & d' & -> & _)|rewrite Dn]; discriminate.
  - intros n [P Nt]. apply A3 in P. destruct P as [X|(e & x & X & Y)]; [|right; exists e, x; auto].
    destruct (denotes L n) as [d|] eqn:E; [|left; now apply Old]. right. destruct (New n d X E) as (q & d' & Rn & (T & _ & Ns & _)). exists q, (d_node d').
    split; [exact Rn|]. split; [exact Ns|]. intros t Et. apply (Nt d eq_refl), T. unfold is_type. now rewrite Et.
  - intros n P. apply A4 in P as (d & t' & X). exists d, t'. auto.
  - intros n m M. destruct (A5 n m M) as (e & e' & x & mp & E & NM & Gm). destruct (Be x mp m e' NM Gm) as (mp' & d' & NM' & G').
    exists e, d', x, mp'. auto.
  - intros n P. apply A6 in P as (d & E). exists d. auto.
  - intros n P. apply A7 in P. destruct P as [X|(e & x & X & Y)]; [|right; exists e, x; auto].
    destruct (denotes L n) as [d|] eqn:E; [|left; now apply Old]. right. destruct (New n d X E) as (q & d' & Rn & (_ & _ & _ & Nl)). exists q, (d_node d').
    split; [exact Rn|exact Nl].
  - intros n _. eexists _, b, []. split; [exact Ec|]. split; [reflexivity|]. split; [exact Nb|reflexivity].
  - intros n [P E]. now apply Old; [apply A9|].
  - intros n O. apply A10 in O. destruct O as [O|(NB & d & t' & X & O)]; [now left|right]. split; [exact NB|]. exists d, t'. auto.
  - now apply stands_heap.
Qed.

Lemma answers_frame t cs us h h' a l : frame t cs us h h' -> ~ t a -> answers_with h (DImpl a) l -> answers_with h' (DImpl a) l.
Proof.
  intros F N (A1 & A2 & A3). assert (L : a < length (h_maps h)).
  { specialize (A3 []). cbn in A3. unfold impl_get in A3. destruct (nth_error (h_maps h) a) eqn:E; [eapply nth_lt; eauto|congruence]. }
  assert (G : forall n, dget h' (DImpl a) n = dget h (DImpl a) n) by (intros n; cbn [dget]; eapply frame_get; eauto).
  split; [|split].
  - intros n p. rewrite G. intros E. destruct (A1 n p E) as (d & D & X). exists d. split; [eapply deref_frame; eauto|exact X].
  - intros d n J S. destruct (A2 d n J S) as (p & E & D). exists p. rewrite G. split; [exact E|eapply deref_frame; eauto].
  - intros n. rewrite G. apply A3.
Qed.

Lemma gives_same h h' x u : h_maps h' = h_maps h -> h_decls h' = h_decls h -> gives h x u -> gives h' x u.
Proof.
  intros Em Ed G n. specialize (G n). destruct (declares u n).
  - destruct G as (q & d' & G & D & A). exists q, d'. rewrite (dget_same_maps h h') by exact Em. split; [exact G|]. split; [|exact A]. destruct q; cbn in *; now rewrite ?Ed.
  - now rewrite (dget_same_maps h h').
Qed.
(** ** Steps of the parser of a unit *)
Section Passes.
Context (at_ : list nat) (all : list unit_source).
Record step (uc u : nat) (s s' : pst) : Prop := mkStep {
  sp_frame : frame (fun a => ~ away a s) (fun c => c = s_ctx s \/ c = uc) (eq u) (s_heap s) (s_heap s');
  sp_at : s_ctx s' = s_ctx s \/ length (h_ctxs (s_heap s)) <= s_ctx s';
  sp_away : forall a, a < length (h_maps (s_heap s)) -> away a s -> away a s';
  sp_fits : at_there at_ (s_heap s) -> fits at_ (s_heap s) -> fits at_ (s_heap s') }.
Lemma step_trans uc u s1 s2 s3 : step uc u s1 s2 -> step uc u s2 s3 -> step uc u s1 s3.
Proof.
  intros [A1 A2 A3 A4] [B1 B2 B3 B4]. pose proof (fr_ctxlen _ _ _ _ _ A1). pose proof (fr_maplen _ _ _ _ _ A1). constructor.
  - eapply frame_trans; [exact A1|exact B1| | |auto].
    + intros a L N Aw. apply N. now apply A3.
    + intros c L [->| ->]; [|now right]. destruct A2 as [A2|A2]; [left; exact A2|lia].
  - destruct B2 as [B2|B2]; [|right; lia]. destruct A2 as [A2|A2]; [left|right]; congruence.
  - intros a L Aw. apply B3; [lia|auto].
  - intros T F. apply B4; [eapply at_frame; eauto|auto].
Qed.
Lemma moved_step uc u s s' : moved uc u s s' ->
  (forall o, nth_error (h_units (s_heap s)) u = Some o -> exists o', nth_error (h_units (s_heap s')) u = Some o' /\ un_ident o' = un_ident o) ->
  (exists l, h_uses (s_heap s') = h_uses (s_heap s) ++ l /\ unitless l) -> step uc u s s'.
Proof.
  intros M H (l & E & N). pose proof (moved_frame uc u s s' M H) as F. constructor; [exact F|apply M|apply M|]. intros T Ft. eapply fits_more; eauto.
Qed.
Lemma wp_tidy {A B} (p : prog A) (k : A -> prog B) s Q : tidy p -> anchored s ->
  wp p s (fun a s1 => (exists l, h_uses (s_heap s1) = h_uses (s_heap s) ++ l /\ unitless l) -> wp (k a) s1 Q) -> wp (Bind p k) s Q.
Proof.
  intros T An H. apply wp_elim in H as (a & s1 & R & H). apply wp_bind. eapply wp_run; [exact R|]. apply H. now apply T in R.
Qed.

(** ** Where the parser of a unit stands *)
Record unit_text := mkUnitText { g_text : list rune; g_style : style; g_unit : unit_source; g_path : gostring; g_more : words }.
Definition behind_clause (g : unit_text) : words :=
  flat_map (write_section (g_style g)) (us_sections (g_unit g)) ++ flat_map (write_exports (g_style g)) (us_exports (g_unit g)) ++
  write_init (g_style g) (us_init (g_unit g)) ++ wkey "END" :: wsym "." :: g_more g.
Definition impl_part (g : unit_text) : words := wkey "IMPLEMENTATION" :: write_clause (us_impl_uses (g_unit g)) ++ behind_clause g.
Definition intf_part (g : unit_text) : words := flat_map (write_intf (g_style g)) (us_decls (g_unit g)) ++ impl_part g.
Context (m pc : nat).
Notation R := (recs_at m).
Definition fine (g : unit_text) : Prop := good_unit_among all (g_style g) (g_unit g) /\ length (write_unit (g_style g) (g_unit g)) <= m /\ g_more g <> [].
Lemma fine_lengths g : fine g ->
  length (write_clause (us_uses (g_unit g))) <= m /\ length (flat_map (write_intf (g_style g)) (us_decls (g_unit g))) <= m /\
  length (write_clause (us_impl_uses (g_unit g))) <= m /\ length (flat_map (write_section (g_style g)) (us_sections (g_unit g))) <= m /\
  length (flat_map (write_exports (g_style g)) (us_exports (g_unit g))) <= m /\ length (write_init (g_style g) (us_init (g_unit g))) <= m.
Proof. intros (_ & L & _). unfold write_unit in L. cbn [app length] in L. repeat (rewrite app_length in L; cbn [length] in L). lia. Qed.

(** Behind the uses clause of the interface section *)
Record waiting (h : heap) (p : uparser) (g : unit_text) (mp : nat) : Prop := mkWaiting {
  wt_ctx : up_ctx p = up_uc p;
  wt_obj : nth_error (h_ctxs h) (up_uc p) = Some (mkCtx (KUnit pc) (Some (g_path g)) (DChained DEmbedded mp));
  wt_unit : exists i us, nth_error (h_units h) (up_unit p) = Some (mkUnit (g_path g) i (us_port (g_unit g)) (Some (mkIntf us None)) None None DNil) /\
    i_name i = us_name (g_unit g) /\ clause_listed h us (us_uses (g_unit g)) /\ clause_names_items (up_pst p h) us (us_uses (g_unit g));
  wt_scope : in_scope (g_text g) (after_clause (us_uses (g_unit g)) program_scope) (up_pst p h) (intf_part g) }.
(** Behind the interface section *)
Record halfway (h : heap) (p : uparser) (g : unit_text) (M : dmap) (a : nat) : Prop := mkHalfway {
  hw_kind : exists ou, nth_error (h_ctxs h) (up_uc p) = Some ou /\ cx_kind ou = KUnit pc;
  hw_obj : nth_error (h_ctxs h) (up_ctx p) = Some (mkCtx (KUnit pc) (Some (g_path g)) M);
  hw_unit : exists i us l, nth_error (h_units h) (up_unit p) = Some (mkUnit (g_path g) i (us_port (g_unit g)) (Some (mkIntf us (nonempty l))) None None (DImpl a)) /\
    i_name i = us_name (g_unit g) /\ clause_tied at_ h us (us_uses (g_unit g)) /\ map bare_intf l = map bare_intf (us_decls (g_unit g)) /\
    answers_with h (DImpl a) (entries l);
  hw_scope : in_scope (g_text g) (behind_interface all (g_unit g)) (up_pst p h) (impl_part g) }.
(** At the end *)
Definition finished (h : heap) (v : nat) (g : unit_text) (a : nat) : Prop :=
  exists o l, nth_error (h_units h) v = Some o /\ un_map o = DImpl a /\ unit_holds (clause_tied at_ h) o (g_path g) (g_unit g) /\
    (exists i, un_intf o = Some i /\ is_decls i = nonempty l) /\ map bare_intf l = map bare_intf (us_decls (g_unit g)) /\ answers_with h (DImpl a) (entries l).

Lemma names_items_frame t cs us s h' o text sc ws l : in_scope text sc s ws ->
  nth_error (h_ctxs (s_heap s)) (s_ctx s) = Some o -> frame t cs us (s_heap s) h' -> ~ cs (s_ctx s) -> (forall a, In a (reads (cx_map o)) -> ~ t a) ->
  forall c, clause_names_items s c l -> clause_names_items (with_heap h' s) c l.
Proof.
  intros I Eo F Nc Nt c. assert (K : forall p, cx_kind o <> KStack p) by (destruct (sc_context _ _ _ _ I) as (o1 & E1 & K); rewrite Eo in E1; injection E1 as <-; exact K).
  destruct c as [c|], l as [l|]; cbn; auto. apply Forall2_imp. intros a i H x E. destruct (H x E) as (d & Rd). exists d.
  eapply resolves_frame; [exact Eo|exact K|apply I|eapply fr_ctxs; eauto|reflexivity|exact K|exact F|exact Nt|exact Rd].
Qed.
Lemma waiting_frame t cs us h h' p g mp : frame t cs us h h' -> units_keep us h h' -> (forall v, us v \/ ~ us v) ->
  ~ t mp -> ~ cs (up_uc p) -> ~ us (up_unit p) -> waiting h p g mp -> waiting h' p g mp.
Proof.
  intros F Uk Dec Nt Nc Nu [A1 A2 (i & us0 & A3 & A4 & A5 & A6) A7].
  assert (Eo : nth_error (h_ctxs (s_heap (up_pst p h))) (s_ctx (up_pst p h)) = Some (mkCtx (KUnit pc) (Some (g_path g)) (DChained DEmbedded mp))) by (cbn; rewrite A1; exact A2).
  assert (Nr : forall a, In a (reads (DChained DEmbedded mp)) -> ~ t a) by (intros a [<-|[]]; exact Nt).
  constructor; [exact A1|eapply fr_ctxs; eauto| |].
  - exists i, us0. split; [eapply fr_unit; eauto|]. split; [exact A4|]. split; [eapply listed_frame; eauto|].
    eapply (names_items_frame t cs us (up_pst p h) h'); [exact A7|exact Eo|exact F|cbn; now rewrite A1|exact Nr|exact A6].
  - eapply (in_scope_frame (g_text g) t cs us _ (up_pst p h)); [exact A7|exact Eo|cbn; rewrite A1; eapply fr_ctxs; eauto|reflexivity|discriminate|exact F|exact Nr|exact Uk|exact Dec].
Qed.
Lemma halfway_frame t cs us h h' p g M a : frame t cs us h h' -> units_keep us h h' -> (forall v, us v \/ ~ us v) -> at_there at_ h -> fits at_ h' ->
  (forall b, In b (reads M) -> ~ t b) -> ~ t a -> ~ cs (up_ctx p) -> ~ us (up_unit p) -> halfway h p g M a -> halfway h' p g M a.
Proof.
  intros F Uk Dec T Ft Nr Na Nc Nu [(ou & A0 & A1) A2 (i & us0 & l & A3 & A4 & A5 & A6 & A6') A7]. constructor.
  - destruct (fr_kinds _ _ _ _ _ F _ _ _ A0 A1) as (ou' & E & K & _). eauto.
  - eapply fr_ctxs; eauto.
  - exists i, us0, l. split; [eapply fr_unit; eauto|]. split; [exact A4|]. split; [eapply clause_tied_frame; eauto|]. split; [exact A6|]. eapply answers_frame; eauto.
  - eapply (in_scope_frame (g_text g) t cs us _ (up_pst p h)); [exact A7|exact A2|cbn; eapply fr_ctxs; eauto|reflexivity|discriminate|exact F|exact Nr|exact Uk|exact Dec].
Qed.
Lemma finished_frame t cs us h h' v g a : frame t cs us h h' -> at_there at_ h -> fits at_ h' -> ~ t a -> ~ us v -> finished h v g a -> finished h' v g a.
Proof.
  intros F T Ft Na Nu (o & l & A1 & A2 & (H1 & H2 & H3 & (i1 & H4 & H5 & H6) & (i2 & H7 & H8 & H9) & H10) & A4 & A5 & A6). exists o, l.
  split; [eapply fr_unit; eauto|]. split; [exact A2|]. split; [|split; [exact A4|split; [exact A5|eapply answers_frame; eauto]]].
  split; [exact H1|]. split; [exact H2|]. split; [exact H3|]. split; [|split; [|exact H10]].
  - exists i1. split; [exact H4|]. split; [eapply clause_tied_frame; eauto|exact H6].
  - exists i2. split; [exact H7|]. split; [eapply clause_tied_frame; eauto|exact H9].
Qed.
Definition parent_here (h : heap) : Prop := exists q mp, nth_error (h_ctxs h) pc = Some (mkCtx (KProgram at_) q mp).
Lemma parent_frame t cs us h h' : frame t cs us h h' -> ~ cs pc -> parent_here h -> parent_here h'.
Proof. intros F N (q & mp & E). exists q, mp. eapply fr_ctxs; eauto. Qed.
Lemma assign_here h uc ou us : parent_here h -> nth_error (h_ctxs h) uc = Some ou -> cx_kind ou = KUnit pc -> assign_units h uc us = Some (assign_units_loop h at_ us).
Proof. intros (q & mp & E) Eu K. unfold assign_units, parent_units. rewrite Eu. destruct ou as [k p0 m0]. cbn in K. subst k. now rewrite E. Qed.
Lemma up_back s uc u : up_pst (up_of s uc u) (s_heap s) = s.
Proof. now destruct s. Qed.

(** ** The interface section *)
Lemma intf_pass Q h p g mp : waiting h p g mp -> fine g -> parent_here h -> called at_ all h -> at_there at_ h -> fits at_ h ->
  all_ready at_ all Q h (us_uses (g_unit g)) ->
  exists p' h' M a t, intf_of R p h = ROk p' h' /\ up_uc p' = up_uc p /\ up_unit p' = up_unit p /\
    (up_ctx p' = up_uc p \/ length (h_ctxs h) <= up_ctx p') /\ halfway h' p' g M a /\
    frame nobody_at (eq (up_uc p)) (eq (up_unit p)) h h' /\ units_keep (eq (up_unit p)) h h' /\ fits at_ h' /\
    length (h_maps h) <= a /\ target M = Some t /\ length (h_maps h) <= t /\ t <> a /\
    (forall b, In b (reads M) -> length (h_maps h) <= b \/ b = mp \/ exists x, Q x /\ In b (reads x)).
Proof.
  intros [A1 A2 (i & us & A3 & A4 & A5 & A6) A7] Fg Ph Cl Th Ft Rd. pose proof (fine_lengths g Fg) as (_ & L2 & _). destruct Fg as ((_ & _ & Dn & Gi & _) & _ & _).
  set (s := up_pst p h) in *. set (uc := up_uc p) in *. set (u := up_unit p) in *.
  set (oc := mkCtx (KUnit pc) (Some (g_path g)) (DChained DEmbedded mp)) in *.
  destruct (assign_clause at_ us _ h Ft A5) as (v & Ea & Ft1 & F1 & T1). set (h1 := with_uses v h) in *.
  assert (Cl1 : called at_ all h1) by (eapply called_frame; eauto).
  assert (Sc : s_ctx s = uc) by exact A1.
  assert (I1 : in_scope (g_text g) (after_clause (us_uses (g_unit g)) program_scope) (with_heap h1 s) (intf_part g)).
  { eapply (in_scope_frame _ _ _ _ _ s); [exact A7|rewrite Sc; exact A2|rewrite Sc; exact A2|reflexivity|discriminate|exact F1|intros ? ? []|intros ? ? []|auto]. }
  assert (Nm1 : clause_names_items (with_heap h1 s) us (us_uses (g_unit g))).
  { eapply (names_items_frame nobody_at nobody_at nobody_at s h1 oc); [exact A7|rewrite Sc; exact A2|exact F1|intros []|intros ? ? []|exact A6]. }
  assert (Rd1 : all_ready at_ all Q h1 (us_uses (g_unit g))).
  { intros w x n J Jn S. destruct (Rd w x n J Jn S) as (o & Eo & G & Qo). exists o. split; [exact Eo|]. split; [|exact Qo]. now apply (gives_same h). }
  pose proof (qualified_items at_ all Q (g_text g) _ (with_heap h1 s) _ us (us_uses (g_unit g)) Cl1 T1 Nm1 Rd1 I1) as I2.
  pose proof (used_maps at_ all Q h1 us _ Cl1 T1 Rd1) as Um. set (ms := units_maps h1 (compact (uses_units h1 (or_nil us)))) in *.
  set (b := length (h_maps h)). set (M0 := DComposite (DImpl b :: rev ms ++ [DChained DEmbedded mp])).
  set (h2 := with_maps (h_maps h ++ [[]]) h1). set (h3 := ctx_put_map h2 uc M0).
  assert (Eo2 : nth_error (h_ctxs h2) uc = Some oc) by exact A2.
  assert (X : h_uses h3 = v /\ h_units h3 = h_units h /\ h_progs h3 = h_progs h /\ h_maps h3 = h_maps h ++ [[]] /\ h_decls h3 = h_decls h).
  { unfold h3. rewrite ctx_put_map_maps, ctx_put_map_decls. unfold ctx_put_map. rewrite Eo2. auto. }
  destruct X as (X1 & X2 & X3 & X4 & X5).
  assert (Eo3 : nth_error (h_ctxs h3) uc = Some (mkCtx (KUnit pc) (Some (g_path g)) M0)) by (unfold h3; rewrite (ctx_put_map_ctx _ _ oc _ Eo2); reflexivity).
  assert (I3 : in_scope (g_text g) (import (used all (us_uses (g_unit g))) (clause_scope all (us_uses (g_unit g)) program_scope)) (with_heap h3 s) (intf_part g)).
  { change (with_heap h3 s) with (with_heap h3 (with_heap h1 s)).
    eapply (in_scope_import _ _ _ _ _ oc ms); [exact I2|cbn [with_heap s_heap s_ctx]; rewrite Sc; exact A2|exact X4|exact X5|exact X1|exact X2|exact X3|cbn [with_heap s_heap s_ctx]; rewrite Sc; exact Eo3|].
    eapply Forall2_imp; [|exact Um]. intros ? ? []. auto. }
  destruct (set_core (with_heap h3 s) [mkDecl i (NUnit u)]) as (h4 & R4 & F4).
  { apply I3. }
  { constructor; [|constructor]. apply (sc_free _ _ _ _ I3). exact Logic.I. }
  { discriminate. }
  { cbn. constructor; [intros []|constructor]. }
  pose proof (in_scope_name (g_text g) _ _ _ _ (NUnit u) _ ltac:(discriminate) I3 F4) as I4. rewrite A4 in I4.
  change (with_heap h4 (with_heap h3 s)) with (with_heap h4 s) in *. fold (interface_scope all (g_unit g)) in I4.
  assert (V4 : evolved (with_heap h3 s) (with_heap h4 s)) by (eapply evolves_set; [apply context_anchored, I3|exact R4]).
  (* the frame up to here *)
  assert (Fb : frame nobody_at (eq uc) (eq u) h1 h3).
  { constructor; rewrite ?X2, ?X3, ?X4, ?X5.
    - intros a o E. rewrite X1. exists o. split; [exact E|auto].
    - intros x o E. exists o. split; [exact E|auto].
    - reflexivity.
    - exists []. now rewrite app_nil_r.
    - intros a o E. exists o. rewrite nth_error_app1 by (eapply nth_lt; eauto). split; [exact E|]. split; [auto|apply keeps_refl].
    - rewrite app_length. apply Nat.le_add_r.
    - intros c o E N. unfold h3. rewrite ctx_put_map_other by auto. exact E.
    - unfold h3. rewrite ctx_put_map_len. reflexivity.
    - intros c o q E K. destruct (Nat.eq_dec c uc) as [->|N].
      + assert (o = oc) as -> by (change (h_ctxs h1) with (h_ctxs h) in E; congruence). eexists. split; [exact Eo3|]. split; [exact K|reflexivity].
      + exists o. unfold h3. rewrite ctx_put_map_other by auto. auto. }
  assert (Th1 : at_there at_ h1) by (eapply at_frame; eauto). assert (Th3 : at_there at_ h3) by (eapply at_frame; eauto).
  assert (Ft3 : fits at_ h3) by (eapply (fits_more at_ _ _ _ h1 h3 []); [exact Fb|exact Th1|rewrite app_nil_r; exact X1|constructor|exact Ft1]).
  assert (Fa : frame nobody_at (eq uc) (eq u) h h3) by (eapply frame_trans; [eapply frame_weak; [exact F1|intros ? ? []|intros ? ? []|intros ? ? []]|exact Fb|auto|auto|auto]).
  assert (Aw3 : forall a, a < b -> away a (with_heap h3 s)).
  { intros a La o E T. cbn [with_heap s_heap s_ctx] in E. rewrite Sc, Eo3 in E. injection E as <-. cbn in T. injection T as ->. lia. }
  pose proof (evolved_moved uc u _ _ (context_anchored _ (sc_context _ _ _ _ I3)) V4) as M34.
  assert (U4 : nth_error (h_units h4) u = Some (mkUnit (g_path g) i (us_port (g_unit g)) (Some (mkIntf us None)) None None DNil)) by (rewrite (sf_units _ _ _ F4); cbn; rewrite X2; exact A3).
  assert (H : wp (Bind (process_intf_body R uc u) Ret) s (fun _ s5 => moved uc u (with_heap h4 s) s5 /\
    (exists l, h_uses (s_heap s5) = h_uses h4 ++ l /\ unitless l) /\
    exists l a, map bare_intf l = map bare_intf (us_decls (g_unit g)) /\
      nth_error (h_units (s_heap s5)) u = Some (mkUnit (g_path g) i (us_port (g_unit g)) (Some (mkIntf us (nonempty l))) None None (DImpl a)) /\
      length (h_maps h4) <= a /\ a < length (h_maps (s_heap s5)) /\ away a s5 /\ answers_with (s_heap s5) (DImpl a) (entries l) /\
      (exists l, nth_error (h_ctxs (s_heap s5)) (s_ctx s5) = Some (mkCtx (KUnit pc) (Some (g_path g)) (chain l M0)) /\ Forall (fun b => length (h_maps h4) <= b) l) /\
      in_scope (g_text g) (behind_interface all (g_unit g)) s5 (impl_part g))).
  { unfold process_intf_body. fl. eapply d_onheap.
    { change (s_heap s) with h. unfold unit_intf_uses. rewrite A3. cbn [un_intf is_uses un_ident]. unfold import_unit_decls.
      rewrite (assign_here h uc oc _ Ph A2 eq_refl), Ea. unfold new_map. change (h_maps h1) with (h_maps h). fold h2 b. rewrite Eo2.
      change (units_maps h2 (compact (uses_units h1 (or_nil us)))) with ms. rewrite maps_reverse_rev. cbn [cx_map oc]. fold M0 h3.
      unfold set in R4. cbn [run with_heap s_heap s_ctx] in R4. rewrite Sc in R4. destruct (ctx_set h3 uc [mkDecl i (NUnit u)]) as [h5|h5 e|]; try discriminate R4.
      apply (f_equal (fun o => match o with OOk _ s => Some (s_heap s) | _ => None end)) in R4. cbn in R4. injection R4 as ->. reflexivity. }
    fl. eapply wp_tidy; [apply tidy_intf_body|apply context_anchored, I4|]. apply wp_last.
    eapply (d_intf_body (g_text g) (g_style g) m uc u _ _ (us_decls (g_unit g))); [exact U4|reflexivity|reflexivity|exact L2|exact I4|exact Gi|].
    intros l a s5 El U5 M5 La1 La2 Aw An Hc I5. apply wp_ret. intros Ul. apply wp_ret. split; [exact M5|]. split; [exact Ul|]. exists l, a.
    split; [exact El|]. split; [exact U5|]. split; [exact La1|]. split; [exact La2|]. split; [exact Aw|]. split; [now apply An|]. split; [|exact I5].
    destruct (Hc (mkCtx (KUnit pc) (Some (g_path g)) M0)) as (l0 & H0 & F0); [cbn [with_heap s_heap s_ctx]; rewrite (sf_ctxs _ _ _ F4); cbn [with_heap s_heap]; rewrite Sc; exact Eo3|].
    exists l0. split; [exact H0|exact F0]. }
  apply run_of in H as ([] & s5 & R5 & M5 & Ul & l & a & El & U5 & La1 & La2 & Aw & An & (l0 & H0 & F0) & I5).
  assert (St : step uc u (with_heap h3 s) s5).
  { eapply step_trans; [|apply moved_step; [exact M5| |exact Ul]].
    - apply moved_step; [exact M34| |].
      + intros o E. exists o. cbn [with_heap s_heap]. rewrite (sf_units _ _ _ F4). auto.
      + exists []. rewrite app_nil_r. split; [apply (sf_uses _ _ _ F4)|constructor].
    - intros o E. cbn [with_heap s_heap] in E. rewrite U4 in E. injection E as <-. eexists. split; [exact U5|reflexivity]. }
  assert (Lm : S b <= length (h_maps h4)).
  { pose proof (ev_len _ _ V4) as L4. cbn [with_heap s_heap] in L4. rewrite X4, app_length in L4. cbn in L4. unfold b. lia. }
  assert (Ff : frame nobody_at (eq uc) (eq u) h (s_heap s5)).
  { eapply frame_trans; [exact Fa|apply (sp_frame _ _ _ _ St)| | |auto].
    - intros x Lx N. apply N. now apply Aw3.
    - intros c Lc [->| ->]; [symmetry; exact Sc|reflexivity]. }
  exists (up_of s5 uc u), (s_heap s5), (chain l0 M0), a.
  assert (exists t, target (chain l0 M0) = Some t /\ b <= t) as (t & Et & Lt).
  { destruct l0 as [|y l0]; [exists b; split; [reflexivity|lia]|]. destruct (chain_target (y :: l0) M0) as (t & Jt & Tt); [discriminate|]. exists t. split; [exact Tt|].
    rewrite Forall_forall in F0. apply F0 in Jt. lia. }
  exists t. split; [|split; [reflexivity|split; [reflexivity|split; [|split; [|split; [exact Ff|split; [|split; [|split; [|split; [exact Et|split; [exact Lt|split; [|]]]]]]]]]]]].
  - unfold intf_of. fold uc u s. rewrite R5. reflexivity.
  - cbn [up_ctx up_of]. destruct (sp_at _ _ _ _ St) as [E|L]; [left; rewrite E; exact Sc|right]. cbn [with_heap s_heap] in L. unfold h3 in L. rewrite ctx_put_map_len in L. exact L.
  - constructor; cbn [up_uc up_unit up_ctx up_of]; rewrite ?up_back.
    + destruct (fr_kinds _ _ _ _ _ Ff uc oc pc A2 eq_refl) as (ou & E & K & _). eauto.
    + exact H0.
    + exists i, us, l. split; [exact U5|]. split; [exact A4|]. split; [|split; [exact El|exact An]].
      eapply clause_tied_frame; [apply (sp_frame _ _ _ _ St)|exact Th3|now apply (sp_fits _ _ _ _ St)|]. cbn [with_heap s_heap].
      eapply (clause_tied_frame at_ _ _ _ h1 h3); [exact Fb|exact Th1|exact Ft3|exact T1].
    + exact I5.
  - intros w o <- E. eexists. split; [exact U5|]. left. fold u in A3. rewrite A3 in E. now injection E as <-.
  - now apply (sp_fits _ _ _ _ St).
  - fold b. lia.
  - intros ->. now apply (Aw _ H0).
  - intros x J. apply reads_chain in J as [J|J].
    + left. rewrite Forall_forall in F0. apply F0 in J. fold b. lia.
    + change (reads M0) with (flat_map reads ([DImpl b] ++ rev ms ++ [DChained DEmbedded mp])) in J. rewrite !flat_map_app in J.
      apply in_app_or in J as [[<-|[]]|J]; [left; reflexivity|]. apply in_app_or in J as [J|J]; right; [right|left].
      * apply in_flat_map in J as (y & Jy & J). apply in_rev in Jy. exists y. split; [|exact J]. clear -Um Jy. clearbody ms. induction Um as [|? ? ? ? [_ Hq] Um IH]; [destruct Jy|]. destruct Jy as [<-|Jy]; auto.
      * cbn in J. destruct J as [<-|[]]. reflexivity.
Qed.

(** ** The implementation section *)
Lemma put_map_frame h c x o : nth_error (h_ctxs h) c = Some o -> frame nobody_at (eq c) nobody_at h (ctx_put_map h c x).
Proof.
  intros E. assert (X : forall c' o', nth_error (h_ctxs h) c' = Some o' -> c <> c' -> nth_error (h_ctxs (ctx_put_map h c x)) c' = Some o') by (intros; rewrite ctx_put_map_other; auto).
  constructor; auto.
  - intros a i Ei. exists i. unfold ctx_put_map. rewrite E. auto.
  - intros v i Ei. exists i. unfold ctx_put_map. rewrite E. auto.
  - unfold ctx_put_map. now rewrite E.
  - exists []. now rewrite ctx_put_map_decls, app_nil_r.
  - intros a i Ei. exists i. rewrite ctx_put_map_maps. split; [exact Ei|]. split; [auto|apply keeps_refl].
  - now rewrite ctx_put_map_maps.
  - now rewrite ctx_put_map_len.
  - intros c' o' p E' K. destruct (Nat.eq_dec c c') as [<-|N]; [|exists o'; auto]. rewrite E in E'. injection E' as <-.
    eexists. split; [apply (ctx_put_map_ctx _ _ o), E|]. auto.
Qed.
Lemma local_unit_frame h u o o' : nth_error (h_units h) u = Some o -> un_ident o' = un_ident o ->
  frame nobody_at nobody_at (eq u) h (with_units (set_nth u o' (h_units h)) (with_maps (h_maps h ++ [[]]) h)).
Proof.
  intros E Ei. constructor; cbn [h_uses h_units h_progs h_decls h_maps h_ctxs with_units with_maps]; auto.
  - eauto 10.
  - intros v i Ev. destruct (Nat.eq_dec v u) as [->|N].
    + exists o'. rewrite nth_set_nth_eq by (eapply nth_lt; eauto). rewrite E in Ev. injection Ev as <-. split; [reflexivity|]. split; [exact Ei|congruence].
    + exists i. rewrite nth_set_nth_neq by auto. auto.
  - exists []. now rewrite app_nil_r.
  - intros a i Ea. exists i. rewrite nth_error_app1 by (eapply nth_lt; eauto). split; [exact Ea|]. split; [auto|apply keeps_refl].
  - rewrite app_length. lia.
  - eauto.
Qed.
Lemma d_impl_scope text sc s ws uc u ou uo a us l : in_scope text sc s ws -> parent_here (s_heap s) ->
  nth_error (h_ctxs (s_heap s)) uc = Some ou -> cx_kind ou = KUnit pc -> nth_error (h_units (s_heap s)) u = Some uo -> un_map uo = DImpl a ->
  called at_ all (s_heap s) -> at_there at_ (s_heap s) -> fits at_ (s_heap s) -> clause_listed (s_heap s) us l -> clause_names_items s us l ->
  all_ready at_ all (fun x => exists b, x = DImpl b) (s_heap s) l ->
  exists h4, run (impl_scope uc u (or_nil us)) s = OOk (DImpl a) (with_heap h4 s) /\
    in_scope text (beside (used all l) (qualified (named_units all l) sc)) (with_heap h4 s) ws /\
    step uc u s (with_heap h4 s) /\ clause_tied at_ h4 us l /\
    nth_error (h_units h4) u = Some (with_unit_map (DComposite [DImpl (length (h_maps (s_heap s))); DImpl a]) uo).
Proof.
  intros I Ph Eu Ku Eo Em Cl Th Ft Li Nm Rd. set (h := s_heap s) in *. set (c := s_ctx s).
  destruct (sc_context _ _ _ _ I) as (oc & Ec & Kc). fold h c in Ec.
  destruct (assign_clause at_ us l h Ft Li) as (v & Ea & Ft1 & F1 & T1). set (h1 := with_uses v h) in *.
  assert (Cl1 : called at_ all h1) by (eapply called_frame; eauto). assert (Th1 : at_there at_ h1) by (eapply at_frame; eauto).
  assert (I1 : in_scope text sc (with_heap h1 s) ws).
  { eapply (in_scope_frame _ _ _ _ _ s); [exact I|exact Ec|exact Ec|reflexivity|exact Kc|exact F1|intros ? ? []|intros ? ? []|auto]. }
  assert (Nm1 : clause_names_items (with_heap h1 s) us l).
  { eapply (names_items_frame nobody_at nobody_at nobody_at s h1 oc); [exact I|exact Ec|exact F1|intros []|intros ? ? []|exact Nm]. }
  assert (Rd1 : all_ready at_ all (fun x => exists b, x = DImpl b) h1 l).
  { intros w x n J Jn S. destruct (Rd w x n J Jn S) as (o & E & G & Qo). exists o. split; [exact E|]. split; [|exact Qo]. now apply (gives_same h). }
  pose proof (qualified_items at_ all _ text _ (with_heap h1 s) _ us l Cl1 T1 Nm1 Rd1 I1) as I2.
  set (b := length (h_maps h)). set (uo' := with_unit_map (DComposite [DImpl b; DImpl a]) uo).
  set (h3 := with_units (set_nth u uo' (h_units h)) (with_maps (h_maps h ++ [[]]) h1)).
  assert (F3 : frame nobody_at nobody_at (eq u) h1 h3) by (apply (local_unit_frame h1 u uo uo'); [exact Eo|reflexivity]).
  assert (Cl3 : called at_ all h3) by (eapply called_frame; eauto). assert (Th3 : at_there at_ h3) by (eapply at_frame; eauto).
  assert (Ft3 : fits at_ h3) by (eapply (fits_more at_ _ _ _ h1 h3 []); [exact F3|exact Th1|now rewrite app_nil_r|constructor|exact Ft1]).
  assert (T3 : clause_tied at_ h3 us l) by (eapply clause_tied_frame; eauto).
  assert (Lu : u < length (h_units h)) by (eapply nth_lt; eauto).
  assert (U3 : nth_error (h_units h3) u = Some uo') by (apply nth_set_nth_eq, Lu).
  assert (Nb : nth_error (h_maps h3) b = Some []) by apply nth_app_new.
  assert (Gl : forall n, dget h3 (DComposite [DImpl b; DImpl a]) n = dget h3 (DImpl a) n).
  { intros n. rewrite dget_composite. cbn [map first_found dget]. unfold impl_get at 1. rewrite Nb. cbn [mget]. now destruct (impl_get h3 a n). }
  assert (Rd3 : all_ready at_ all (fun _ => True) h3 l).
  { intros w x n J Jn S. destruct (Rd1 w x n J Jn S) as (o & E & G & (b0 & Eb)). rewrite Eb in G. apply (gives_frame _ _ _ _ _ _ _ F3) in G; [|intros []].
    destruct (Nat.eq_dec w u) as [->|N].
    - exists uo'. split; [exact U3|]. split; [|exact Logic.I]. change (h_units h1) with (h_units h) in E. assert (o = uo) as -> by congruence.
      rewrite Em in Eb. injection Eb as <-. intros y. specialize (G y). cbn [un_map with_unit_map uo']. rewrite Gl. exact G.
    - exists o. split; [apply (fr_unit _ _ _ _ _ _ _ F3); [exact E|congruence]|]. split; [rewrite Eb; exact G|exact Logic.I]. }
  pose proof (used_maps at_ all _ h3 us l Cl3 T3 Rd3) as Um. set (ms := units_maps h3 (compact (uses_units h3 (or_nil us)))) in *.
  set (M := DComposite ([DImpl b; cx_map ou] ++ rev ms)). set (h4 := ctx_put_map h3 uc M).
  assert (Eu3 : nth_error (h_ctxs h3) uc = Some ou) by exact Eu.
  pose proof (put_map_frame h3 uc M ou Eu3) as F4. fold h4 in F4.
  assert (X : h_uses h4 = v /\ h_units h4 = h_units h3 /\ h_progs h4 = h_progs h /\ h_maps h4 = h_maps h ++ [[]] /\ h_decls h4 = h_decls h).
  { unfold h4. rewrite ctx_put_map_maps, ctx_put_map_decls. unfold ctx_put_map. rewrite Eu3. auto. }
  destruct X as (X1 & X2 & X3 & X4 & X5).
  assert (Eu4 : nth_error (h_ctxs h4) uc = Some (mkCtx (cx_kind ou) (cx_path ou) M)) by (unfold h4; now rewrite (ctx_put_map_ctx _ _ ou _ Eu3)).
  assert (Ft4 : fits at_ h4) by (eapply (fits_more at_ _ _ _ h3 h4 []); [exact F4|exact Th3|rewrite app_nil_r; exact X1|constructor|exact Ft3]).
  assert (Be : better h1 h4).
  { intros x mp n d NM G. assert (Kv : forall w o, nth_error (h_units h1) w = Some o -> un_map o = mp -> exists o' d', nth_error (h_units h4) w = Some o' /\ dget h4 (un_map o') n = LFound d').
    { intros w o E E'. rewrite X2. destruct (found_frame _ _ _ _ _ _ _ _ F3 G) as (d' & G'). destruct (Nat.eq_dec w u) as [->|N].
      - exists uo', d'. split; [exact U3|]. change (h_units h1) with (h_units h) in E. assert (o = uo) as -> by congruence. cbn [un_map with_unit_map uo'].
        rewrite (dget_same_maps h3 h4) by (now rewrite X4). rewrite Gl, <- Em, E'. exact G'.
      - exists o, d'. split; [apply (fr_unit _ _ _ _ _ _ _ F3); [exact E|congruence]|]. rewrite (dget_same_maps h3 h4) by (now rewrite X4). now rewrite E'. }
    destruct x; cbn [namespace_map] in *; try contradiction.
    - destruct NM as (it & w & o & N1 & N2 & N3 & N4). destruct (Kv w o N3 N4) as (o' & d' & E' & G'). exists (un_map o'), d'. split; [|exact G']. exists it, w, o'. rewrite X1. auto.
    - destruct NM as (o & N3 & N4). destruct (Kv _ o N3 N4) as (o' & d' & E' & G'). exists (un_map o'), d'. split; [|exact G']. exists o'. auto.
    - destruct NM as (o & N3 & N4). destruct (found_frame _ _ _ _ _ _ _ _ F3 G) as (d' & G'). exists mp, d'. split; [exists o; rewrite X3; auto|]. now rewrite (dget_same_maps h3 h4) by (now rewrite X4). }
  assert (F14 : frame nobody_at (eq uc) (eq u) h h4).
  { eapply frame_trans; [|exact F4|auto|auto|intros ? ? []]. eapply frame_trans; [|exact F3|auto|intros ? ? []|auto]. eapply frame_weak; [exact F1|intros ? ? []|intros ? ? []|intros ? ? []]. }
  exists h4. split; [|split; [|split; [|split]]].
  - unfold impl_scope. cbn [run]. fold h c. rewrite (assign_here h uc ou _ Ph Eu Ku), Ea. change (h_ctxs h1) with (h_ctxs h). change (h_units h1) with (h_units h).
    rewrite Eu, Eo. unfold new_map. change (h_maps h1) with (h_maps h). fold b.
    rewrite (put_unit_there _ u uo) by exact Eo. change (h_units (with_maps (h_maps h ++ [[]]) h1)) with (h_units h). rewrite Em. fold uo' h3.
    change (uses_units h1 (or_nil us)) with (uses_units h3 (or_nil us)). fold ms. rewrite maps_reverse_rev. fold M h4. reflexivity.
  - destruct (Nat.eq_dec c uc) as [E|N].
    + change (with_heap h4 s) with (with_heap h4 (with_heap h1 s)). rewrite <- E in Eu4. fold c in Ec. rewrite <- E in Eu.
      eapply (in_scope_beside _ _ _ _ _ ou ms); [exact I2|exact Eu|exact X4|exact X5|exact Be|exact Eu4|].
      eapply Forall2_imp; [|exact Um]. intros x y [G _]. apply (gives_same h3); [now rewrite X4|now rewrite X5|exact G].
    + assert (E4 : nth_error (h_ctxs h4) c = Some oc) by (unfold h4; rewrite ctx_put_map_other by auto; exact Ec).
      eapply in_scope_le; [apply beside_le|]. eapply (in_scope_view _ _ (with_heap h1 s)); [exact I2| | | | |exact Be|apply stands_heap, I]; cbn [with_heap s_heap s_ctx]; fold c.
      * exists oc. split; [exact E4|exact Kc].
      * intros n. rewrite (ctx_get_plain h4 c oc n E4 Kc), (ctx_get_plain h1 c oc n Ec Kc). apply dget_reads. intros x J. unfold impl_get. rewrite X4, nth_error_app1; [reflexivity|].
        eapply (scope_reads text sc s ws oc x); eauto.
      * intros [e|e] x; cbn; rewrite ?X5; auto.
      * intros n (o & x & mp & E & E1 & E2 & E3). assert (o = oc) as -> by (change (h_ctxs h1) with (h_ctxs h) in E; congruence). exists oc, x, mp. split; [exact E4|]. split; [exact E1|]. split; [|exact E3].
        rewrite X4, nth_error_app1 by (eapply nth_lt; eauto). exact E2.
  - constructor; cbn [with_heap s_heap s_ctx]; fold h c.
    + eapply frame_weak; [exact F14|intros ? ? []|auto|auto].
    + now left.
    + intros x Lx Aw o E T. destruct (Nat.eq_dec c uc) as [E'|N].
      * cbn [with_heap s_heap s_ctx] in E. fold c in E. rewrite E', Eu4 in E. injection E as <-. cbn in T. injection T as T. unfold b in T. lia.
      * cbn [with_heap s_heap s_ctx] in E. fold c in E. unfold h4 in E. rewrite ctx_put_map_other in E by auto. eapply Aw; eauto.
    + auto.
  - eapply clause_tied_frame; [exact F4|exact Th3|exact Ft4|exact T3].
  - rewrite X2. exact U3.
Qed.
Lemma unit_frame h u o o' : nth_error (h_units h) u = Some o -> un_ident o' = un_ident o ->
  frame nobody_at nobody_at (eq u) h (with_units (set_nth u o' (h_units h)) h).
Proof.
  intros E Ei. constructor; cbn [h_uses h_units h_progs h_decls h_maps h_ctxs with_units]; auto.
  - eauto 10.
  - intros v i Ev. destruct (Nat.eq_dec v u) as [->|N].
    + exists o'. rewrite nth_set_nth_eq by (eapply nth_lt; eauto). rewrite E in Ev. injection Ev as <-. split; [reflexivity|]. split; [exact Ei|congruence].
    + exists i. rewrite nth_set_nth_neq by auto. auto.
  - exists []. now rewrite app_nil_r.
  - intros a i Ea. exists i. split; [exact Ea|]. split; [auto|apply keeps_refl].
  - eauto.
Qed.
Lemma impl_pass h p g M a t : halfway h p g M a -> fine g -> parent_here h -> called at_ all h -> at_there at_ h -> fits at_ h ->
  target M = Some t -> t <> a -> all_ready at_ all (fun x => exists b, x = DImpl b /\ b <> t) h (us_impl_uses (g_unit g)) ->
  exists p' h', impl_of R p h = ROk p' h' /\ finished h' (up_unit p) g a /\
    frame (eq t) (fun c => c = up_ctx p \/ c = up_uc p) (eq (up_unit p)) h h' /\ units_keep (eq (up_unit p)) h h' /\ fits at_ h'.
Proof.
  intros [(ou & A0 & A1) A2 (i & us & l & A3 & A4 & A5 & A6 & A6') A7] Fg Ph Cl Th Ft Et Nt Rd.
  pose proof (fine_lengths g Fg) as (_ & _ & L3 & L4 & L5 & L6). destruct Fg as ((_ & _ & Dn & _ & Gc & Gi) & _ & NE).
  destruct Gi as (Gs & Gx & Gn). set (s := up_pst p h) in *. set (uc := up_uc p) in *. set (u := up_unit p) in *. set (gu := g_unit g) in *.
  assert (Npc : uc <> pc /\ up_ctx p <> pc) by (destruct Ph as (q & mp & E); split; intros E'; [rewrite E', E in A0; injection A0 as <-; discriminate A1|rewrite E', E in A2; discriminate A2]).
  assert (Aw : forall b, b <> t -> away b s).
  { intros b Nb o E T. cbn in E. rewrite A2 in E. injection E as <-. cbn in T. congruence. }
  destruct (g_more g) as [|wm more] eqn:Em; [congruence|].
  destruct (impl_begins (g_style g) (us_sections gu) (us_exports gu) (us_init gu) (wsym "." :: wm :: more)) as (x3 & ws3 & E3 & N3).
  (* the uses clause *)
  assert (HA : wp (Bind (l <- parse_impl_uses R uc u ;; impl_scope uc u l) Ret) s (fun x s2 => x = DImpl a /\ step uc u s s2 /\
    exists us4 b, clause_tied at_ (s_heap s2) us4 (us_impl_uses gu) /\
      nth_error (h_units (s_heap s2)) u = Some (mkUnit (g_path g) i (us_port gu) (Some (mkIntf us (nonempty l))) (Some (mkImpl us4 None None)) None (DComposite [DImpl b; DImpl a])) /\
      in_scope (g_text g) (implementation_scope all gu) s2 (behind_clause g))).
  { fl. eapply wp_tidy; [apply tidy_impl_uses|apply context_anchored, A7|]. apply wp_last.
    eapply (d_impl_uses (g_text g) m uc u _ (us_impl_uses gu)); [eapply nth_lt; exact A0|exact A3|exact Gc|exact N3|exact L3|eapply same_words; [|exact A7]|].
    { unfold impl_part, behind_clause. fold gu. rewrite Em. now rewrite <- E3. }
    intros us4 s1 Su U1 M1 I1 Nm1. rewrite <- E3 in I1. apply wp_ret. intros Ul. fl.
    assert (St : step uc u s s1).
    { apply moved_step; [exact M1| |exact Ul]. intros o E. cbn in E. fold u in E. rewrite A3 in E. injection E as <-. eexists. split; [exact U1|reflexivity]. }
    pose proof (sp_frame _ _ _ _ St) as F1. cbn [up_pst s_heap] in F1. change (s_heap s) with h in F1.
    destruct (fr_kinds _ _ _ _ _ F1 uc ou pc A0 A1) as (ou1 & Eu1 & Ku1 & _).
    assert (Rd1 : all_ready at_ all (fun x => exists b, x = DImpl b) (s_heap s1) (us_impl_uses gu)).
    { intros w x n J Jn S. destruct (Rd w x n J Jn S) as (o & E & G & (b & Eb & Nb)). rewrite Eb in G. apply (gives_frame _ _ _ _ _ _ _ F1) in G; [|intros X; now apply X, Aw].
      destruct (Nat.eq_dec w u) as [->|N].
      - eexists. split; [exact U1|]. assert (Ea : DImpl a = DImpl b) by (rewrite A3 in E; injection E as <-; exact Eb). cbn [un_map with_impl]. rewrite Ea. split; [exact G|eauto].
      - exists o. split; [apply (fr_unit _ _ _ _ _ _ _ F1); [exact E|congruence]|]. rewrite Eb. split; [exact G|eauto]. }
    match type of U1 with _ = Some ?x => set (o1 := x) in U1 end.
    destruct (d_impl_scope (g_text g) _ s1 _ uc u ou1 o1 a us4 (us_impl_uses gu) I1) as (h4 & R4 & I4 & St4 & T4 & U4);
      [eapply parent_frame; [exact F1|intros [E|E]; destruct Npc; [cbn in E|]; congruence|exact Ph]|exact Eu1|exact Ku1|exact U1|reflexivity|eapply called_frame; eauto|eapply at_frame; eauto|now apply (sp_fits _ _ _ _ St)|
       now apply says_listed|exact Nm1|exact Rd1|].
    apply wp_bind. eapply wp_run; [exact R4|]. apply wp_ret. split; [reflexivity|]. split; [eapply step_trans; [exact St|exact St4]|].
    exists us4, (length (h_maps (s_heap s1))). split; [exact T4|]. split; [exact U4|]. unfold implementation_scope, clause_scope. fold gu.
    eapply same_words; [|exact I4]. unfold behind_clause. fold gu. now rewrite Em. }
  apply run_of in HA as (x & s2 & R2 & -> & St2 & us4 & b & T2 & U2 & I2).
  pose proof (sp_frame _ _ _ _ St2) as F2. change (s_heap s) with h in F2. assert (Th2 : at_there at_ (s_heap s2)) by (eapply at_frame; eauto).
  destruct (init_begins (g_style g) (us_init gu) (wsym "." :: wm :: more)) as (x5 & ws5 & E5 & J5).
  (* the rest *)
  assert (HB : wp (Bind (parse_impl_body R u ;;; parse_unit_end R u) Ret) s2 (fun _ s4 => step uc u s2 s4 /\
    exists ds5 ex5 i6, says bare_section ds5 (us_sections gu) /\ says (map bare_export) ex5 (us_exports gu) /\ init_says i6 (us_init gu) /\
      nth_error (h_units (s_heap s4)) u = Some (mkUnit (g_path g) i (us_port gu) (Some (mkIntf us (nonempty l))) (Some (mkImpl us4 ds5 ex5)) i6 (DComposite [DImpl b; DImpl a])))).
  { fl. eapply wp_tidy; [apply tidy_impl_body|apply context_anchored, I2|]. apply wp_last.
    eapply (d_impl_body (g_text g) (g_style g) m uc u _ (mkImpl us4 None None) (us_sections gu) (us_exports gu)); [exact U2|reflexivity|exact L4|exact L5|exact J5|eapply same_words; [|exact I2]|exact Gs|exact Gx|].
    { unfold behind_clause. fold gu. rewrite Em. now rewrite <- E5. }
    intros ds5 ex5 s3 Sd Se U3 M3 I3. rewrite <- E5 in I3. apply wp_ret. intros Ul3. fl.
    assert (St3 : step uc u s2 s3).
    { apply moved_step; [exact M3| |exact Ul3]. intros o E. rewrite U2 in E. injection E as <-. eexists. split; [exact U3|reflexivity]. }
    eapply wp_tidy; [apply tidy_unit_end|apply context_anchored, I3|]. apply wp_last.
    eapply (d_unit_end (g_text g) (g_style g) m uc u _ (us_init gu)); [exact U3|reflexivity|exact L6|exact I3|exact Gn|]. intros i6 s4 Si U4 M4 _. apply wp_ret. intros Ul4. apply wp_ret.
    split; [eapply step_trans; [exact St3|]|exists ds5, ex5, i6; auto 10].
    apply moved_step; [exact M4| |exact Ul4]. intros o E. rewrite U3 in E. injection E as <-. eexists. split; [exact U4|reflexivity]. }
  apply run_of in HB as (x & s4 & R4 & St4 & ds5 & ex5 & i6 & Sd & Se & Si & U4).
  pose proof (sp_frame _ _ _ _ (step_trans _ _ _ _ _ St2 St4)) as F4. change (s_heap s) with h in F4.
  set (o4 := mkUnit (g_path g) i (us_port gu) (Some (mkIntf us (nonempty l))) (Some (mkImpl us4 ds5 ex5)) i6 (DComposite [DImpl b; DImpl a])) in *.
  set (h5 := with_units (set_nth u (with_unit_map (DImpl a) o4) (h_units (s_heap s4))) (s_heap s4)).
  assert (F5 : frame nobody_at nobody_at (eq u) (s_heap s4) h5) by (apply (unit_frame _ u o4); [exact U4|reflexivity]).
  assert (Th4 : at_there at_ (s_heap s4)) by (eapply at_frame; eauto).
  assert (Ft4 : fits at_ (s_heap s4)) by (apply (sp_fits _ _ _ _ (step_trans _ _ _ _ _ St2 St4)); auto).
  assert (Ft5 : fits at_ h5) by (eapply (fits_more at_ _ _ _ (s_heap s4) h5 []); [exact F5|exact Th4|now rewrite app_nil_r|constructor|exact Ft4]).
  assert (U5 : nth_error (h_units h5) u = Some (with_unit_map (DImpl a) o4)) by (apply nth_set_nth_eq; eapply nth_lt; exact U4).
  assert (Ff : frame (eq t) (fun c => c = up_ctx p \/ c = uc) (eq u) h h5).
  { eapply frame_trans; [eapply frame_weak; [exact F4| |auto|auto]|exact F5|intros ? ? []|intros ? ? []|auto].
    intros y _ N. destruct (Nat.eq_dec t y) as [E|E]; [exact E|]. destruct N. apply Aw. auto. }
  exists (up_of (with_heap h5 s4) uc u), h5. split; [|split; [|split; [exact Ff|split; [|exact Ft5]]]].
  - unfold impl_of, process_impl_and_init. fold uc u s. rewrite R2, R4. rewrite (put_unit_there _ u o4) by exact U4. reflexivity.
  - exists (with_unit_map (DImpl a) o4), l. split; [exact U5|]. split; [reflexivity|]. split; [|split; [eexists; split; reflexivity|]].
    + split; [reflexivity|]. split; [exact A4|]. split; [reflexivity|]. split; [|split; [|exact Si]].
      * exists (mkIntf us (nonempty l)). split; [reflexivity|]. split; [|apply says_of, A6]. eapply clause_tied_frame; [exact Ff|exact Th|exact Ft5|exact A5].
      * exists (mkImpl us4 ds5 ex5). split; [reflexivity|]. split; [|split; [exact Sd|exact Se]]. eapply clause_tied_frame; [exact F5|exact Th4|exact Ft5|].
        eapply clause_tied_frame; [apply (sp_frame _ _ _ _ St4)|exact Th2|exact Ft4|exact T2].
    + split; [exact A6|]. eapply answers_frame; [exact Ff|congruence|exact A6'].
  - intros w o <- E. eexists. split; [exact U5|]. right. rewrite A3 in E. now injection E as <-.
Qed.

(** ** The beginning of a unit *)
Lemma frame_ctxs t cs us h h' : frame t cs us h h' -> h_ctxs h' = h_ctxs h -> frame t nobody_at us h h'.
Proof. intros [A1 A2 A3 A4 A5 A6 A7 A8 A9] E. constructor; auto. intros c o Ec _. now rewrite E. Qed.
Lemma add_unit_there h l q x u : nth_error (h_ctxs h) pc = Some (mkCtx (KProgram l) q x) ->
  add_unit h pc u = with_ctxs (set_nth pc (mkCtx (KProgram (l ++ [u])) q x) (h_ctxs h)) h.
Proof. intros E. unfold add_unit. now rewrite E. Qed.
Lemma add_unit_frame h l q x u : nth_error (h_ctxs h) pc = Some (mkCtx (KProgram l) q x) -> frame nobody_at (eq pc) nobody_at h (add_unit h pc u).
Proof.
  intros E. rewrite (add_unit_there _ _ _ _ _ E). constructor; cbn [h_uses h_units h_progs h_decls h_maps h_ctxs with_ctxs]; auto.
  - eauto 10.
  - eauto.
  - exists []. now rewrite app_nil_r.
  - intros a i Ea. exists i. split; [exact Ea|]. split; [auto|apply keeps_refl].
  - intros c o Ec N. now rewrite nth_set_nth_neq.
  - now rewrite set_nth_length.
  - intros c o p Ec K. destruct (Nat.eq_dec c pc) as [->|N]; [rewrite E in Ec; injection Ec as <-; discriminate K|]. exists o. rewrite nth_set_nth_neq by auto. auto.
Qed.
Lemma load_pass files h st u text ls rest uc path mp l q x :
  files path = Some text -> written ls text -> map word ls = write_unit st u ++ rest -> length ls <= m -> good_unit_among all st u ->
  nth_error (h_ctxs h) pc = Some (mkCtx (KProgram l) q x) ->
  nth_error (h_ctxs h) uc = Some (mkCtx (KUnit pc) (Some path) (DChained DEmbedded mp)) -> nth_error (h_maps h) mp = Some [] ->
  exists p h' g, load_unit R files pc (uc, path) h = ROk p h' /\ up_uc p = uc /\ up_unit p = length (h_units h) /\ waiting h' p g mp /\ fine g /\
    g_style g = st /\ g_unit g = u /\ g_path g = path /\
    frame (eq mp) (eq pc) nobody_at h h' /\ nth_error (h_ctxs h') pc = Some (mkCtx (KProgram (l ++ [up_unit p])) q x) /\
    length (h_units h') = S (length (h_units h)) /\ length (h_ctxs h') = length (h_ctxs h) /\
    exists lu, h_uses h' = h_uses h ++ lu /\ unitless lu.
Proof.
  intros Ef W E L G Epc Euc Emp. pose proof G as (Gp & Gc & _).
  destruct (stands_start text ls uc [] h W) as (s & N & St & Ec & Ep & Eh). rewrite E, <- app_assoc in St.
  assert (Lb : length (write_unit st u) <= m) by (apply (f_equal (@length _)) in E; rewrite map_length, app_length in E; lia).
  set (g := mkUnitText text st u path (rest ++ [weof])).
  assert (Fg : fine g) by (split; [exact G|]; split; [exact Lb|cbn; now destruct rest]).
  pose proof (fine_lengths g Fg) as (L1 & _). cbn [g g_unit g_style] in L1.
  assert (Npc : pc <> uc) by (intros ->; congruence).
  assert (I : in_scope text program_scope s (write_unit st u ++ rest ++ [weof])).
  { eapply (fresh_start text s _ _ mp); [rewrite Ec, Eh; exact Euc|discriminate|reflexivity|rewrite Eh; exact Emp|exact St]. }
  set (a := length (h_units h)).
  assert (H : wp (Bind (parse_ident_and_intf_uses R uc) Ret) s (fun u0 s2 => u0 = a /\ moved uc a s s2 /\ exists i us,
      nth_error (h_units (s_heap s2)) a = Some (mkUnit path i (us_port u) (Some (mkIntf us None)) None None DNil) /\ i_name i = us_name u /\
      clause_says (s_heap s2) us (us_uses u) /\ clause_names_items s2 us (us_uses u) /\ in_scope text (after_clause (us_uses u) program_scope) s2 (intf_part g))).
  { unfold write_unit in I. cbn [app] in I. repeat (rewrite <- app_assoc in I; cbn [app] in I). unfold parse_ident_and_intf_uses. fl.
    eapply d_unit_ident; [exact I|exists (mkCtx (KUnit pc) (Some path) (DChained DEmbedded mp)); rewrite Eh; split; [exact Euc|reflexivity]|exact Gp|].
    intros i s1 Ni u1 U1 M1 I1. subst u1. rewrite Eh in U1, M1. fold a in U1, M1. rewrite Eh. fold a. fl.
    destruct (intf_begins st (us_decls u) (write_clause (us_impl_uses u) ++ behind_clause g)) as (x1 & ws1 & E1 & N1).
    eapply d_intf_uses; [exact U1|exact Gc|exact N1|exact L1|eapply same_words; [|exact I1]; rewrite <- E1; unfold behind_clause; cbn [g g_unit g_style g_more]; reflexivity|].
    intros us s2 Su U2 M2 I2 Nm. fl. apply wp_ret. split; [reflexivity|]. split; [eapply moved_trans; [exact M1|exact M2]|].
    exists i, us. split; [exact U2|]. split; [exact Ni|]. split; [exact Su|]. split; [exact Nm|]. rewrite <- E1 in I2. exact I2. }
  apply run_of in H as (u0 & s2 & R2 & -> & M2 & i & us & U2 & Ni & Su & Nm & I2).
  destruct (still_beginning R uc s a s2 R2) as (C2 & X2 & lu & Eu & Nu). rewrite Ec in C2. rewrite Eh in X2, Eu.
  assert (F2 : frame (eq mp) nobody_at nobody_at h (s_heap s2)).
  { rewrite <- Eh at 1. eapply frame_ctxs; [|rewrite Eh; exact X2]. eapply (frame_weak _ _ _ (eq mp) (fun c => c = s_ctx s \/ c = uc) nobody_at); [apply (moved_frame uc a s s2 M2)| |auto|].
    - intros o Eo. rewrite Eh in Eo. apply nth_lt in Eo. unfold a in Eo. lia.
    - intros b _ Nb. destruct (Nat.eq_dec mp b) as [Y|Y]; [exact Y|]. destruct Nb. intros o Eo T. rewrite Ec, Eh, Euc in Eo. injection Eo as <-. cbn in T. congruence.
    - intros v Lv <-. rewrite Eh in Lv. unfold a in Lv. lia. }
  assert (Epc2 : nth_error (h_ctxs (s_heap s2)) pc = Some (mkCtx (KProgram l) q x)) by (rewrite X2; exact Epc).
  pose proof (add_unit_frame _ _ _ _ a Epc2) as F3. set (p := up_of s2 uc a).
  assert (Wt : waiting (s_heap s2) p g mp).
  { unfold p. constructor; cbn [up_uc up_unit up_ctx up_of g g_path g_unit g_text]; rewrite ?up_back; [exact C2|rewrite X2; exact Euc| |exact I2].
    exists i, us. split; [exact U2|]. split; [exact Ni|]. split; [now apply says_listed|exact Nm]. }
  exists p, (add_unit (s_heap s2) pc a), g. split; [|split; [reflexivity|split; [reflexivity|split; [|split; [exact Fg|split; [reflexivity|split; [reflexivity|split; [reflexivity|split; [|split; [|split; [|split]]]]]]]]]]].
  - unfold load_unit. rewrite Ef. rewrite run_bind. change (run Next ?x) with (next_token x). rewrite N, R2. reflexivity.
  - eapply waiting_frame; [exact F3|intros ? ? []|auto|intros []|exact Npc|intros []|exact Wt].
  - eapply frame_trans; [eapply frame_weak; [exact F2|auto|intros ? ? []|intros ? ? []]|exact F3|intros ? ? []|auto|auto].
  - rewrite (add_unit_there _ _ _ _ _ Epc2). cbn [h_ctxs with_ctxs]. apply nth_set_nth_eq. eapply nth_lt; eauto.
  - rewrite (add_unit_there _ _ _ _ _ Epc2). cbn [h_units with_ctxs]. fold a.
    assert (a < length (h_units (s_heap s2))) by (eapply nth_lt; eauto).
    assert (length (h_units (s_heap s2)) <= S a); [|lia]. apply nth_error_None. rewrite (mv_units _ _ _ _ M2) by lia. rewrite Eh. apply nth_error_None. unfold a. lia.
  - rewrite (add_unit_there _ _ _ _ _ Epc2). cbn [h_ctxs with_ctxs]. now rewrite set_nth_length, X2.
  - exists lu. rewrite (add_unit_there _ _ _ _ _ Epc2). auto.
Qed.
End Passes.
End WithUnicode.
