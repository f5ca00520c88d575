(** The theorem about a unit on its own. *)
From Coq Require Import String List NArith Bool Arith Lia.
From Verif Require Import ListUtil Runes UnicodeFacts Token Tokenizer LexSpec LexShape LexFacts LexMain Ext ExtMain Ast Heap Classes MapSpec MapFacts MapMain Prog Parser ParseSpec RunFacts
  ExprSpec WpFacts ExprFacts StmtSpec GrowFacts StmtFacts EvolveFacts EvolveParse Units UnitSpec UsesMain CaseSpec TermUnitSpec DeclSpec ScopeFacts DeclFacts TypeFacts SectionFacts DeclMain TermUnit UnitTextSpec UnitTextFacts UnitBodyFacts.
Import ListNotations.
Local Open Scope list_scope.
Local Open Scope prog_scope.

Section WithUnicode.
Context {U : Unicode} {UOK : UnicodeOk U}.

Notation words := (list (ttype * gostring)).

(** A context with nothing in it *)
Lemma fresh_start text s ws o a : nth_error (h_ctxs (s_heap s)) (s_ctx s) = Some o -> (forall p, cx_kind o <> KStack p) ->
  cx_map o = DChained DEmbedded a -> nth_error (h_maps (s_heap s)) a = Some [] -> stands text s ws -> in_scope text program_scope s ws.
Proof.
  intros Eo K Em Ea St.
  assert (Gt : forall n, ctx_get (s_heap s) (s_ctx s) n = match embedded_get n with Some d => LFound d | None => LNil end).
  { intros n. rewrite (ctx_get_plain _ _ o _ Eo K), Em. cbn [dget]. unfold impl_get. rewrite Ea. reflexivity. }
  assert (Ty : forall n i, embedded_get n = Some i -> exists t, deref (s_heap s) i = Some t /\ exists ty, d_node t = NType ty).
  { intros n i E. assert (Ed : dget (s_heap s) DEmbedded n = LFound i) by (cbn [dget]; now rewrite E).
    destruct (builtins_only (s_heap s) n i Ed) as (k & nm & _ & _ & D). rewrite D. eexists. split; [reflexivity|]. eexists. reflexivity. }
  constructor; cbn [program_scope known names plain_name type_name member a_label no_label free undeclared ordinal].
  - exists o. auto.
  - intros n. rewrite Gt. destruct (embedded_get n); discriminate.
  - intros n E. left. rewrite Gt, E. reflexivity.
  - intros n E. destruct (embedded_get n) as [i|] eqn:Ei; [|congruence]. destruct (Ty n i Ei) as (t & D & ty & Et). exists i, ty. split; [rewrite Gt, Ei; reflexivity|]. eauto.
  - intros n m (d & d' & []).
  - intros n [].
  - intros n _. destruct (embedded_get n) as [i|] eqn:Ei; [|left; rewrite Gt, Ei; reflexivity].
    destruct (Ty n i Ei) as (t & D & ty & Et). right. exists i, (d_node t). split; [split; [rewrite Gt, Ei; reflexivity|eauto]|]. rewrite Et. discriminate.
  - intros n _. exists o, a, []. rewrite Em. auto.
  - intros n E. rewrite Gt, E. reflexivity.
  - intros n E. now left.
  - exact St.
Qed.

Section Unit.
Context (text : list rune) (st : style) (m : nat) (uc : nat).
Notation R := (recs_at m).
Notation in_scope := (in_scope text).
Ltac fl := cbv beta iota; repeat (match goal with
  | |- wp (Bind (Ret _) _) _ _ => apply wp_ret_bind
  | |- wp (Bind (Bind _ _) _) _ _ => apply wp_assoc
  end; cbv beta iota).
Ltac wd := let t := fresh "t" in let W := fresh "W" in intros t W; cbn [p_some existsb]; rewrite ?sym_w, ?kw_w, ?type_w, ?W; try reflexivity.

Lemma same_words sc s ws ws' : ws = ws' -> in_scope sc s ws -> in_scope sc s ws'.
Proof. now intros ->. Qed.
Lemma path_evolved s s' p : anchored s -> evolved s s' -> s_ctx s' = s_ctx s -> 
  (exists o, nth_error (h_ctxs (s_heap s)) uc = Some o /\ cx_path o = Some p) -> ctx_path (s_heap s') uc = Some p.
Proof.
  intros (os & Es & _) V C (o & Eo & Ep). unfold ctx_path. cbn [ctx_path_fuel]. destruct (Nat.eq_dec uc (s_ctx s)) as [->|N].
  - rewrite Es in Eo. injection Eo as <-. destruct (ev_here _ _ V os Es) as (l & E & _). rewrite C in E. rewrite E. cbn. now rewrite Ep.
  - rewrite (ev_ctxs _ _ V uc o Eo N). now rewrite Ep.
Qed.
Lemma d_unit_ident {B} name port path (k : nat -> prog B) sc s Q w rest : in_scope sc s (wkey "UNIT" :: wident name :: write_port port ++ wsym ";" :: w :: rest) ->
  (exists o, nth_error (h_ctxs (s_heap s)) uc = Some o /\ cx_path o = Some path) -> good_port port ->
  (forall i s1, i_name i = name -> let u := length (h_units (s_heap s)) in
     nth_error (h_units (s_heap s1)) u = Some (mkUnit path i port None None None DNil) -> moved uc u s s1 -> in_scope sc s1 (w :: rest) -> wp (k u) s1 Q) ->
  wp (Bind (parse_unit_ident uc) k) s Q.
Proof.
  intros I Ep Gp K. pose proof (context_anchored _ (sc_context _ _ _ _ I)) as An. unfold parse_unit_ident. fl. eapply d_expect; [exact I|wd|]. intros t0 _. fl.
  apply wp_bind. eapply wp_expect_next; [apply I|intros t W; rewrite type_w, W; reflexivity|]. intros t s1 _ Wt St1 SB. fl.
  pose proof SB as (Sc & Sp & Sh). pose proof (place_evolved _ _ SB) as V1.
  assert (I1 : in_scope sc s1 (wident name :: write_port port ++ wsym ";" :: w :: rest)).
  { eapply in_scope_calm; [exact I|now apply quiet_calm, quiet_place|exact St1]. }
  eapply d_onheap; [rewrite (path_evolved _ _ path An V1 (eq_sym Sc) Ep); reflexivity|]. rewrite with_same_heap.
  set (u := length (h_units (s_heap s))). assert (Lu : length (h_units (s_heap s1)) = u) by (now rewrite <- Sh).
  fl. eapply d_onheap; [rewrite Lu; reflexivity|]. fl.
  set (o0 := mkUnit path (new_ident t) None None None None DNil). set (h2 := with_units (h_units (s_heap s1) ++ [o0]) (s_heap s1)).
  assert (I2 : in_scope sc (with_heap h2 s1) (wident name :: write_port port ++ wsym ";" :: w :: rest)).
  { eapply in_scope_ns; [exact I1| | | | | |apply stands_heap, I1]; try reflexivity. apply better_units; try reflexivity.
    intros v o E. exists o. cbn. rewrite nth_error_app1 by (eapply nth_lt; eauto). auto. }
  assert (U2 : nth_error (h_units h2) u = Some o0) by (cbn; rewrite <- Lu; apply nth_app_new).
  assert (M2 : moved uc u s (with_heap h2 s1)).
  { eapply moved_trans; [apply evolved_moved; [exact An|exact V1]|]. apply moved_units. intros v N. destruct (Nat.lt_ge_cases v u) as [L|L].
    - apply nth_error_app1. lia.
    - rewrite (proj2 (nth_error_None _ _)) by (rewrite app_length; cbn; lia). symmetry. apply nth_error_None. lia. }
  assert (Ni : i_name (new_ident t) = name) by (apply wident_inv in Wt as [_ Rt]; exact Rt).
  destruct port as [p|].
  - destruct Gp as [J Li].
    assert (exists w1, write_port (Some p) = [w1]) as (w1 & Ew) by (cbn; eexists; reflexivity). pose proof (port_w) as PW.
    rewrite Ew in I2. cbn [app] in I2. eapply k_next_tok; [exact I2|]. intros t1 s3 W3 I3 V3. fl.
    destruct (PW t1 p) as [P1 P2]; [rewrite Ew; exact W3|exact J|exact Li|]. rewrite P1, P2. fl.
    eapply (d_change text uc u _ o0); [exact I3|rewrite (ev_units _ _ V3); exact U2|auto|]. intros s4 I4 U4 M4. fl.
    eapply k_next_tok; [exact I4|]. intros t2 s5 W5 I5 V5. fl. rewrite sym_w, W5. change (weqb (wsym ";") (wsym ";")) with true. fl.
    eapply k_next; [exact I5|discriminate|]. intros t3 s6 I6 V6. fl. apply (K (new_ident t)); [exact Ni| | |exact I6].
    + rewrite (ev_units _ _ V6), (ev_units _ _ V5). exact U4.
    + eapply moved_trans; [exact M2|]. eapply moved_trans; [apply evolved_moved; [apply context_anchored, I2|exact V3]|]. eapply moved_trans; [exact M4|].
      eapply moved_trans; [apply evolved_moved; [apply context_anchored, I4|exact V5]|]. apply evolved_moved; [apply context_anchored, I5|exact V6].
  - cbn [write_port app] in I2. eapply k_next_tok; [exact I2|]. intros t1 s3 W3 I3 V3. fl. rewrite (not_port t1 W3). fl.
    rewrite sym_w, W3. change (weqb (wsym ";") (wsym ";")) with true. fl.
    eapply k_next; [exact I3|discriminate|]. intros t3 s6 I6 V6. fl. apply (K (new_ident t)); [exact Ni| | |exact I6].
    + rewrite (ev_units _ _ V6), (ev_units _ _ V3). exact U2.
    + eapply moved_trans; [exact M2|]. eapply moved_trans; [apply evolved_moved; [apply context_anchored, I2|exact V3]|]. apply evolved_moved; [apply context_anchored, I3|exact V6].
Qed.
Lemma d_intf_uses {B} u o l (k : unit -> prog B) sc s Q w rest : nth_error (h_units (s_heap s)) u = Some o ->
  good_clause l sc -> w <> wkey "USES" -> length (write_clause l) <= m -> in_scope sc s (wkey "INTERFACE" :: write_clause l ++ w :: rest) ->
  (forall us s1, clause_says (s_heap s1) us l -> nth_error (h_units (s_heap s1)) u = Some (with_intf (Some (mkIntf us None)) o) ->
     moved uc u s s1 -> in_scope (after_clause l sc) s1 (w :: rest) -> clause_names_items s1 us l -> wp (k tt) s1 Q) ->
  wp (Bind (parse_unit_intf_uses R u) k) s Q.
Proof.
  intros Eo (NE & D & Fr) Nw L I K. unfold parse_unit_intf_uses. fl. eapply d_expect; [exact I|wd|]. intros t0 _. fl.
  assert (exists w2 ws, write_clause l ++ w :: rest = w2 :: ws) as (w2 & ws & E2) by (destruct l; cbn [write_clause write_uses app]; eauto).
  rewrite E2 in I. eapply k_next_tok; [exact I|]. intros t s1 W1 I1 V1. fl. rewrite kw_w, W1.
  pose proof (evolved_moved uc u _ _ (context_anchored _ (sc_context _ _ _ _ I)) V1) as M1.
  assert (Eo1 : nth_error (h_units (s_heap s1)) u = Some o) by (rewrite (ev_units _ _ V1); exact Eo).
  destruct l as [l|]; cbn [write_clause clause_names after_clause] in *.
  - assert (NE' : l <> []) by (intros ->; now apply NE).
    replace (weqb w2 (wkey "USES")) with true by (unfold write_uses in E2; cbn [app] in E2; injection E2 as <- _; reflexivity). rewrite <- E2 in I1. fl.
    eapply (d_uses_clause text m l); [exact NE'|exact D|exact Fr| |exact I1|].
    { unfold write_uses in L. cbn [length] in L. rewrite app_length in L.
      pose proof (commas_count write_uses_item l) as C. cbn [length] in L. assert (length l <= length (commas (map write_uses_item l))); [|lia].
      apply C. rewrite Forall_forall. intros x _. unfold write_uses_item. discriminate. }
    intros us s3 Su _ Rn _ I3 Nm. fl.
    eapply (d_change_names text uc u _ o); [exact I3|rewrite (ran_units _ _ Rn); exact Eo1|auto|]. intros s4 I4 U4 M4 Rs4. fl. apply (K (Some us)).
    + cbn. eapply say_moved; [exact M4|exact Su].
    + exact U4.
    + eapply moved_trans; [exact M1|]. eapply moved_trans; [|exact M4]. apply ran_moved; [apply context_anchored, I1|exact Rn].
    + exact I4.
    + cbn [clause_names_items]. eapply Forall2_imp; [|exact Nm]. cbn. intros a i Hn x E. destruct (Hn x E) as (d & Rd). eauto.
  - cbn [app] in E2. injection E2 as <- <-. replace (weqb w (wkey "USES")) with false by (symmetry; now apply weqb_neq). fl.
    eapply (d_change text uc u _ o); [exact I1|exact Eo1|auto|]. intros s4 I4 U4 M4. fl. apply (K None); [exact Logic.I|exact U4| |exact I4|exact Logic.I].
    eapply moved_trans; [exact M1|exact M4].
Qed.

Lemma intf_begins l rest : exists x ws, flat_map (write_intf st) l ++ wkey "IMPLEMENTATION" :: rest = wkey x :: ws /\ wkey x <> wkey "USES".
Proof.
  destruct l as [|d l]; cbn [flat_map app]; [eexists _, _; split; [reflexivity|discriminate]|]. destruct (intf_first st d) as (x & ws & -> & J). cbn [app].
  eexists _, _. split; [reflexivity|]. unfold intf_words in J. cbn in J. repeat (destruct J as [<-|J]; [discriminate|]). destruct J.
Qed.
Lemma init_begins x rest : exists y ws, write_init st x ++ wkey "END" :: rest = wkey y :: ws /\ In y impl_words.
Proof. destruct x as [[l f]|]; cbn [write_init app]; (eexists _, _; split; [reflexivity|cbn; auto]). Qed.
Lemma impl_begins ds ex x rest : exists y ws,
  flat_map (write_section st) ds ++ flat_map (write_exports st) ex ++ write_init st x ++ wkey "END" :: rest = wkey y :: ws /\ wkey y <> wkey "USES".
Proof.
  destruct ds as [|d ds]; cbn [flat_map app].
  - destruct ex as [|e ex]; cbn [flat_map app]; [|eexists _, _; split; [reflexivity|discriminate]].
    destruct (init_begins x rest) as (y & ws & -> & J). eexists _, _. split; [reflexivity|].
    unfold impl_words in J. cbn in J. repeat (destruct J as [<-|J]; [discriminate|]). destruct J.
  - destruct (section_first st d) as (x1 & ws & -> & J). cbn [app]. eexists _, _. split; [reflexivity|].
    unfold section_words in J. cbn in J. repeat (destruct J as [<-|J]; [discriminate|]). destruct J.
Qed.

Lemma d_unit {B} u path (k : nat -> prog B) sc s Q rest : in_scope sc s (write_unit st u ++ rest) -> rest <> [] ->
  (exists o, nth_error (h_ctxs (s_heap s)) uc = Some o /\ cx_path o = Some path) -> good_unit st u sc -> length (write_unit st u) <= m ->
  (forall o s1, let a := length (h_units (s_heap s)) in nth_error (h_units (s_heap s1)) a = Some o -> unit_says (s_heap s1) o path u ->
     (distinct_names (entry_names (us_decls u)) -> answers_for_interface (s_heap s1) o) -> moved uc a s s1 -> stands text s1 (wsym "." :: rest) -> wp (k a) s1 Q) ->
  wp (Bind (parse_unit R uc) k) s Q.
Proof.
  intros I NR Ep (Gp & Gc & Gi & Gc2 & (Gs & Gx & Gn)) L K. destruct u as [name port uses ds iuses secs exs init]. cbn [us_name us_port us_uses us_decls us_impl_uses us_sections us_exports us_init intf_scope] in *.
  unfold write_unit in I, L. cbn [us_name us_port us_uses us_decls us_impl_uses us_sections us_exports us_init] in I, L.
  cbn [app length] in L. repeat (rewrite app_length in L; cbn [length] in L).
  cbn [app] in I. repeat (rewrite <- app_assoc in I; cbn [app] in I). destruct rest as [|wr rest]; [congruence|].
  assert (Luc : uc < length (h_ctxs (s_heap s))) by (destruct Ep as (o & Eo & _); eapply nth_lt; eauto).
  unfold parse_unit, parse_ident_and_intf_uses. fl. eapply d_unit_ident; [exact I|exact Ep|exact Gp|]. set (a := length (h_units (s_heap s))). intros i s1 Ni u U1 M1 I1. subst u. fl.
  destruct (intf_begins ds (write_clause iuses ++ flat_map (write_section st) secs ++ flat_map (write_exports st) exs ++ write_init st init ++ wkey "END" :: wsym "." :: wr :: rest)) as (x1 & ws1 & E1 & N1).
  eapply d_intf_uses; [exact U1|exact Gc|exact N1|lia|eapply same_words; [|exact I1]; now rewrite <- E1|]. intros us s2 Su U2 M2 I2 _. rewrite <- E1 in I2. fl.
  eapply (d_intf_body text st m uc a _ (mkIntf us None) ds); [exact U2|reflexivity|reflexivity|lia|exact I2|exact Gi|]. intros ds' mp s3 Ed U3 M3 La1 La2 Aw An _ I3. fl.
  destruct (impl_begins secs exs init (wsym "." :: wr :: rest)) as (x3 & ws3 & E3 & N3).
  assert (M13 : moved uc a s s3) by (eapply moved_trans; [exact M1|]; eapply moved_trans; [exact M2|exact M3]).
  eapply (d_impl_uses text m uc a _ iuses); [pose proof (mv_ctxlen _ _ _ _ M13); lia|exact U3|exact Gc2|exact N3|lia|eapply same_words; [|exact I3]; now rewrite <- E3|]. intros us4 s4 Su4 U4 M4 I4 _. rewrite <- E3 in I4. fl.
  destruct (init_begins init (wsym "." :: wr :: rest)) as (x5 & ws5 & E5 & J5).
  eapply (d_impl_body text st m uc a _ (mkImpl us4 None None) secs exs); [exact U4|reflexivity|lia|lia|exact J5|eapply same_words; [|exact I4]; now rewrite <- E5|exact Gs|exact Gx|]. intros ds5 ex5 s5 Sd Se U5 M5 I5. rewrite <- E5 in I5. fl.
  eapply (d_unit_end text st m uc a _ init); [exact U5|reflexivity|lia|exact I5|exact Gn|]. intros i6 s6 Si U6 M6 St6. fl.
  assert (M36 : moved uc a s3 s6) by (eapply moved_trans; [exact M4|]; eapply moved_trans; [exact M5|exact M6]).
  eapply K; [exact U6| | |eapply moved_trans; [exact M13|exact M36]|exact St6].
  - repeat split; try reflexivity; try assumption.
    + exists (mkIntf us (nonempty ds')). split; [reflexivity|]. split; [|apply says_of, Ed]. eapply clause_moved; [|exact Su]. eapply moved_trans; [exact M3|exact M36].
    + exists (mkImpl us4 ds5 ex5). split; [reflexivity|]. split; [|split; [exact Sd|exact Se]]. eapply clause_moved; [|exact Su4]. eapply moved_trans; [exact M5|exact M6].
  - intros Dn. exists (mkIntf us (nonempty ds')). split; [reflexivity|]. cbn [is_decls un_map]. replace (match nonempty ds' with None => [] | Some l => l end) with ds' by (now destruct ds').
    eapply answers_moved; [exact M36|exact La2|exact Aw|]. now apply An.
Qed.
End Unit.

Theorem unit_round_trip :
  forall program path text ls st u rest fuel,
    written ls text -> map word ls = write_unit st u ++ rest -> good_unit st u program_scope -> length ls <= fuel ->
    let h := fst (lone_unit_context program path) in let c := snd (lone_unit_context program path) in
    exists a s' o, parse_text (parse_unit (recs_at fuel) c) text c h = OOk a s' /\
      nth_error (h_units (s_heap s')) a = Some o /\ unit_says (s_heap s') o path u /\
      (distinct_names (entry_names (us_decls u)) -> answers_for_interface (s_heap s') o).
Proof.
  intros program path text ls st u rest fuel W E G L h c.
  destruct (stands_start text ls c [] h W) as (s & N & St & Ec & Ep & Eh). rewrite E, <- app_assoc in St.
  assert (Lb : length (write_unit st u) <= fuel).
  { apply (f_equal (@length _)) in E. rewrite map_length, app_length in E. lia. }
  assert (I : in_scope text program_scope s (write_unit st u ++ rest ++ [weof])).
  { eapply (fresh_start text s _ _ 1); [rewrite Ec, Eh; reflexivity|discriminate|reflexivity|rewrite Eh; reflexivity|exact St]. }
  assert (H : wp (Bind (parse_unit (recs_at fuel) c) Ret) s (fun a s' => exists o, nth_error (h_units (s_heap s')) a = Some o /\ unit_says (s_heap s') o path u /\
      (distinct_names (entry_names (us_decls u)) -> answers_for_interface (s_heap s') o))).
  { eapply (d_unit text st fuel c u path); [exact I|now destruct rest| |exact G|exact Lb|].
    - eexists. rewrite Eh. split; reflexivity.
    - intros o s1 a U1 Sy An _ _. apply wp_ret. exists o. auto. }
  apply run_of in H as (a & s' & R & o & H1 & H2 & H3). exists a, s', o. split; [|auto].
  unfold parse_text. rewrite run_bind. change (run Next ?x) with (next_token x). now rewrite N.
Qed.
End WithUnicode.
