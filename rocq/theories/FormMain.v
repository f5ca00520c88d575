(** What is accepted is written so: programs with units, and the theorems. *)
From Coq Require Import String List NArith Bool Arith Lia Permutation.
From Verif Require Import ListUtil Runes Token Tokenizer CursorFacts LexSpec LexShape LexFacts LexMain Ast Ext ExtSpec ExtMain Heap Classes MapFacts Prog Parser CaseSpec Units ParseSpec RunFacts UnitSpec SortMain ProgramLinkFacts RefUnits IdSpec IdFacts IdParse IdUnits IdMain FormSpec FormFacts FormParse FormStmt FormUnits.
Import ListNotations.
Local Open Scope list_scope.

Section WithUnicode.
Context {U : Unicode} {UOK : UnicodeOk U}.

(** ** From states to texts *)
Lemma alike_value t u : ParseSpec.alike t u -> value t = value u.
Proof. intros (A & B & _). unfold value. now rewrite A, B. Qed.
Lemma behind_begins text ws s : stops_behind text ws s -> begins_with text ws.
Proof. intros (k & c & W & _). now exists k, c. Qed.
Lemma behind_stop text ws s : stops_behind text ws s -> full_stop (s_cur s) -> up_to_stop text ws.
Proof.
  intros (k & c & W & _ & A) (t & C & V). rewrite C in A. destruct c as [t1|]; [|destruct A]. exists k, t1. split; [exact W|].
  rewrite <- V. now apply alike_value.
Qed.

(** ** Units in files *)

Section Files.
Context (R : recs) (RS : recs_spelled R) (RF : recs_forms R) (files : gostring -> option (list rune)).

(** Read to the end, or dropped by the sorting *)
Definition fitted (h : heap) (o : unitobj) : Prop := exists text ws,
  files (un_path o) = Some text /\ unit_listed h o /\
  (up_to_stop text ws /\ unit_f h o ws \/ begins_with text ws /\ un_impl o = None /\ un_init o = None /\ unit_front h o ws).
Definition all_fit (h : heap) : Prop := forall u o, nth_error (h_units h) u = Some o -> fitted h o.
Lemma fitted_kept h h' o o' : uses_kept h h' -> tree_same o o' -> fitted h o -> fitted h' o'.
Proof.
  intros K S (text & ws & F & L & A). exists text, ws. split; [now destruct S as (-> & _)|]. split; [eapply unit_listed_kept; eauto|].
  unfold unit_f. rewrite (front_kept _ _ _ _ K S L). destruct S as (_ & _ & _ & -> & -> & ->). exact A.
Qed.
Lemma all_fit_frame u h h' : frame u h h' -> all_fit h -> (forall k o, u = Some k -> nth_error (h_units h') k = Some o -> fitted h' o) -> all_fit h'.
Proof.
  intros F A T k o' N. assert (D : u = Some k \/ Some k <> u) by (destruct u as [j|]; [destruct (Nat.eq_dec j k); [left|right]; congruence|right; discriminate]).
  destruct D as [->|D]; [eauto|]. destruct (nth_error (h_units h) k) as [o|] eqn:E.
  - destruct (fr_units _ _ _ F k D o E) as (o1 & N1 & S). rewrite N1 in N. injection N as ->. eapply fitted_kept; [exact (fr_uses _ _ _ F)|exact S|eauto].
  - rewrite (fr_back _ _ _ F k D E) in N. discriminate.
Qed.
Lemma all_fit_none h h' : frame None h h' -> all_fit h -> all_fit h'.
Proof. intros F A. eapply all_fit_frame; [exact F|exact A|]. discriminate. Qed.

(** A unit whose parser waits *)
Record stage := mkStage { g_tree : gostring -> unitobj -> Prop; g_form : heap -> unitobj -> form; g_cur : option token -> Prop }.
Definition waits (g : stage) (h : heap) (p : uparser) : Prop := exists text path o,
  files path = Some text /\ nth_error (h_units h) (up_unit p) = Some o /\ unit_listed h o /\ g_tree g path o /\
  stands text (up_pst p h) (cat (g_form g h o) nothing) /\ g_cur g (s_cur (up_pst p h)).
Definition fair (g : stage) : Prop := (forall path, of_tree (g_tree g path)) /\ of_heap (g_form g).
Definition ready (g : stage) : Prop := forall path text h o s, g_tree g path o -> files path = Some text -> unit_listed h o ->
  stands text s (cat (g_form g h o) nothing) -> g_cur g (s_cur s) -> fitted h o.
Lemma waits_many g us h h' p : fair g -> many us h h' -> ~ In (up_unit p) us -> waits g h p -> waits g h' p.
Proof.
  intros [T H] (K & _ & M) N (text & path & o & F & E & L & q & A & C). destruct (M _ N o E) as (o' & E' & S). exists text, path, o'.
  split; [exact F|]. split; [exact E'|]. split; [eapply unit_listed_kept; eauto|]. split; [eapply T; eauto|].
  rewrite (H _ _ _ _ K S L). split; [exact A|exact C].
Qed.
Lemma waits_held g h p : waits g h p -> exists text path, files path = Some text /\ held text h (up_unit p) (g_tree g path) (g_form g) nothing (up_pst p h).
Proof.
  intros (text & path & o & F & E & L & q & A & _). exists text, path. split; [exact F|]. split; [apply frame_refl|]. exists o. auto.
Qed.
Lemma held_waits g text path h0 u uc s : files path = Some text -> held text h0 u (g_tree g path) (g_form g) nothing s -> g_cur g (s_cur s) -> waits g (s_heap s) (up_of s uc u).
Proof.
  intros F (_ & o & E & L & q & A) C. exists text, path, o. repeat (split; [assumption|]). exact C.
Qed.
Lemma waits_fitted g h p o : ready g -> waits g h p -> nth_error (h_units h) (up_unit p) = Some o -> fitted h o.
Proof.
  intros I (text & path & o' & F & E & L & q & A & C) E'. rewrite E in E'. injection E' as <-. eapply I; eauto.
Qed.
Definition any_cur (c : option token) : Prop := True.
Definition g1 := mkStage st1 front any_cur.
Definition g2 := mkStage f2 front any_cur.
Definition g3 := mkStage f6 whole full_stop.
Lemma fair1 : fair g1. Proof. split; [apply tree1|exact heap_front]. Qed.
Lemma fair2 : fair g2. Proof. split; [apply treef2|exact heap_front]. Qed.
Lemma fair3 : fair g3. Proof. split; [apply treef6|exact heap_whole]. Qed.
Lemma front_alone h o ws : un_impl o = None -> un_init o = None -> cat (front h o) nothing ws -> unit_front h o ws.
Proof. intros E1 E2 W. unfold front, unit_front in *. rewrite E1, E2 in *. cbn [FormSpec.opt] in *. words. Qed.
Lemma ready1 : ready g1.
Proof.
  intros path text h o s (q1 & _ & q3 & q4) F L (_ & ws & S & W) _. exists text, ws. rewrite q1. split; [exact F|]. split; [exact L|].
  right. split; [eapply behind_begins, S|]. split; [exact q3|]. split; [exact q4|]. now apply front_alone.
Qed.
Lemma ready2 : ready g2.
Proof.
  intros path text h o s (q1 & _ & q3 & q4) F L (_ & ws & S & W) _. exists text, ws. rewrite q1. split; [exact F|]. split; [exact L|].
  right. split; [eapply behind_begins, S|]. split; [exact q3|]. split; [exact q4|]. now apply front_alone.
Qed.
Lemma ready3 : ready g3.
Proof.
  intros path text h o s (q1 & q2 & q3) F L (_ & ws & S & W) C. exists text, ws. rewrite q1. split; [exact F|]. split; [exact L|].
  left. split; [eapply behind_stop; eauto|]. split; [exact q2|]. split; [exact q3|].
  destruct W as (a & b & -> & A & B). destruct B. rewrite app_nil_r. exact A.
Qed.

(** Steps for one unit after another *)
Definition step (f : uparser -> heap -> result uparser) (Q Q' : stage) : Prop :=
  forall p h p' h', f p h = ROk p' h' -> waits Q h p -> up_unit p' = up_unit p /\ frame (Some (up_unit p)) h h' /\ waits Q' h' p'.
Lemma pass f (Q Q' : stage) : step f Q Q' -> fair Q -> fair Q' ->
  ready Q' ->
  forall l h l' h', Forall (waits Q h) l -> NoDup (map up_unit l) -> all_fit h -> each_of f l h = ROk l' h' ->
  map up_unit l' = map up_unit l /\ Forall (waits Q' h') l' /\ many (map up_unit l) h h' /\ all_fit h'.
Proof.
  intros St T T' P. induction l as [|p l IH]; intros h l' h' W N A; cbn [each_of].
  - intros [= <- <-]. split; [reflexivity|]. split; [constructor|]. split; [apply many_refl|exact A].
  - inversion W as [|? ? Wp Wl]; subst. cbn [map] in N. apply NoDup_cons_iff in N as [Np Nl].
    destruct (f p h) as [p1 h1| | | |] eqn:E; cbn [rbind]; try discriminate. destruct (St _ _ _ _ E Wp) as (U1 & F1 & W1).
    assert (Wl1 : Forall (waits Q h1) l).
    { rewrite Forall_forall in Wl |- *. intros q J. eapply waits_many; [exact T|apply frame_many, F1| |auto].
      intros [X|[]]. apply Np. rewrite X. now apply in_map. }
    assert (A1 : all_fit h1).
    { eapply all_fit_frame; [exact F1|exact A|]. intros k o [= <-] N1. eapply waits_fitted; [exact P|exact W1|now rewrite U1]. }
    destruct (each_of f l h1) as [l1 h2| | | |] eqn:E2; cbn [rbind]; try discriminate. intros [= <- <-].
    destruct (IH _ _ _ Wl1 Nl A1 E2) as (U2 & W2 & M2 & A2). cbn [map]. split; [congruence|].
    split; [constructor; [|exact W2]; eapply waits_many; [exact T'|exact M2|rewrite U1; exact Np|exact W1]|].
    split; [|exact A2]. exact (many_trans _ _ _ _ _ (frame_many _ _ _ F1) M2).
Qed.
Lemma step_intf : step (intf_of R) g1 g2.
Proof.
  intros p h p' h' E W. unfold intf_of in E. destruct (waits_held _ _ _ W) as (text & path & F & H).
  pose proof (q_process_intf_body R RS RF (up_uc p) _ _ _ _ _ H) as X. unfold wq in X.
  destruct (run _ _) as [a s| | | |]; cbn [on_parser rbind snd] in E; try discriminate. injection E as <- <-.
  split; [reflexivity|]. split; [exact (proj1 X)|]. apply (held_waits g2 text path h _ (up_uc p) s F X Logic.I).
Qed.
Lemma step_impl : step (impl_of R) g2 g3.
Proof.
  intros p h p' h' E W. unfold impl_of, process_impl_and_init in E. destruct (waits_held _ _ _ W) as (text & path & F & H).
  set (u := up_unit p) in *. set (uc := up_uc p) in *.
  assert (X : wq (Bind (parse_impl_uses R uc u) (fun l => impl_scope uc u l)) (fun _ s' => held text h u (f3 path) front nothing s') (up_pst p h)).
  { apply wq_bind. eapply wq_weak; [apply (q_impl_uses R uc _ _ _ _ _ H)|cbv beta]. intros l s1 H1. now apply q_impl_scope. }
  unfold wq in X. destruct (run (Bind (parse_impl_uses R uc u) _) _) as [m s1| | | |]; cbn [on_parser rbind] in E; try discriminate.
  assert (Y : wq (Bind (parse_impl_body R u) (fun _ => parse_unit_end R u)) (fun _ s' => held text h u (f6 path) whole nothing s' /\ full_stop (s_cur s')) s1).
  { apply wq_bind. eapply wq_weak; [apply (q_impl_body R RS RF _ _ _ _ _ X)|cbv beta]. intros _ s2 H2. now apply (q_unit_end R RS RF). }
  unfold wq in Y. destruct (run (Bind (parse_impl_body R u) _) _) as [y s2| | | |]; cbn [on_parser rbind snd] in E; try discriminate. injection E as <- <-.
  assert (Z : held text h u (f6 path) whole nothing (with_heap (put_unit (s_heap s2) u (with_unit_map m)) s2)).
  { eapply held_heap; [exact (proj1 Y)| |apply treef6|exact heap_whole]. apply frame_put_same. now intros. }
  split; [reflexivity|]. split; [exact (proj1 Z)|].
  exact (held_waits g3 text path h u uc (with_heap (put_unit (s_heap s2) u (with_unit_map m)) s2) F Z (proj2 Y)).
Qed.

(** ** Loading *)

Lemma load_one pc uc path h p h' : load_unit R files pc (uc, path) h = ROk p h' -> has_path h uc path ->
  nth_error (h_units h) (up_unit p) = None /\ frame (Some (up_unit p)) h h' /\ waits g1 h' p /\
  (forall c q, has_path h c q -> has_path h' c q).
Proof.
  unfold load_unit. destruct (files path) as [text|] eqn:F; [|discriminate]. intros E Hp. set (s0 := mkPst _ None uc [] h) in E.
  assert (X : wq (Bind Next (fun _ => parse_ident_and_intf_uses R uc)) (fun u s' => exists q,
    ctx_path h uc = Some q /\ nth_error (h_units h) u = None /\ held text h u (st1 q) front nothing s') s0).
  { apply wq_bind, (sw_next text nothing); [apply stands_start|]. intros s1 A1 H1. cbn [s_cur s0] in A1. apply stands_weak with (F' := nothing) in A1; [|intros ws W; words]. eapply wq_weak; [apply (q_ident_and_intf_uses R uc _ _ A1)|cbv beta].
    intros u s2. now rewrite H1. }
  assert (Ct : forall u s, run (Bind Next (fun _ => parse_ident_and_intf_uses R uc)) s0 = OOk u s -> h_ctxs (s_heap s) = h_ctxs h).
  { intros u s Eu. assert (S : ProgramLinkFacts.still (Bind Next (fun _ => parse_ident_and_intf_uses R uc))).
    { apply ProgramLinkFacts.still_bind; [apply ProgramLinkFacts.still_next|]. intros _. apply still_beginning. }
    destruct (S _ _ _ Eu) as (_ & C & _). exact C. }
  unfold wq in X. destruct (run _ s0) as [u s| | | |]; cbn [on_parser rbind] in E; try discriminate. injection E as <- <-. cbn [up_unit up_of].
  destruct X as (q & P & N & H). rewrite (has_path_ctx _ _ _ Hp) in P. injection P as <-. split; [exact N|].
  split; [eapply frame_trans; [exact (proj1 H)|apply frame_add]|]. split.
  - pose proof (held_waits g1 text path h u uc s F H Logic.I) as W. eapply waits_many; [apply fair1|apply frame_none_many, frame_add|intros []|exact W].
  - intros c r (o & Eo & Po). apply has_path_add. exists o. rewrite (Ct _ _ eq_refl). auto.
Qed.
Lemma load_all pc : forall cps h ps h', each_of (load_unit R files pc) cps h = ROk ps h' -> (forall c q, In (c, q) cps -> has_path h c q) -> all_fit h ->
  Forall (waits g1 h') ps /\ NoDup (map up_unit ps) /\ (forall p, In p ps -> nth_error (h_units h) (up_unit p) = None) /\ many [] h h' /\ all_fit h'.
Proof.
  induction cps as [|[c q] cps IH]; intros h ps h'; cbn [each_of].
  - intros [= <- <-] _ A. split; [constructor|]. split; [constructor|]. split; [intros p []|]. split; [apply many_refl|exact A].
  - intros E Hp A. destruct (load_unit R files pc (c, q) h) as [p h1| | | |] eqn:E1; cbn [rbind] in E; try discriminate.
    destruct (load_one _ _ _ _ _ _ E1 (Hp _ _ (or_introl eq_refl))) as (N1 & F1 & W1 & P1).
    destruct (each_of _ cps h1) as [ps1 h2| | | |] eqn:E2; cbn [rbind] in E; try discriminate. injection E as <- <-.
    assert (A1 : all_fit h1).
    { eapply all_fit_frame; [exact F1|exact A|]. intros k o [= <-] No. eapply waits_fitted; [exact ready1|exact W1|exact No]. }
    destruct (IH _ _ _ E2) as (W2 & D2 & N2 & M2 & A2); [intros; apply P1, Hp; now right|exact A1|].
    assert (M1 : many [] h h1).
    { destruct (frame_many _ _ _ F1) as (X & Y & Z). split; [exact X|]. split; [exact Y|]. intros k _ o No. apply Z; [|exact No].
      intros [<-|[]]. congruence. }
    split; [constructor; [eapply waits_many; [apply fair1|exact M2|intros []|exact W1]|exact W2]|]. split; [|split; [|split; [exact (many_trans _ _ _ _ _ M1 M2)|exact A2]]].
    + cbn [map]. constructor; [|exact D2]. intros J. apply in_map_iff in J as (p2 & U2 & J). apply N2 in J. rewrite U2 in J.
      destruct W1 as (? & ? & o & _ & No & _). congruence.
    + intros p2 [<-|J]; [exact N1|]. apply N2 in J. destruct (nth_error (h_units h) (up_unit p2)) as [o|] eqn:No; [|reflexivity].
      destruct M1 as (_ & _ & Z). destruct (Z _ (fun x => x) o No) as (o' & No' & _). congruence.
Qed.
Lemma load_units_fit sep order topo pc pa us h x h' : iterates order -> lists_once topo -> all_fit h ->
  load_units R files sep order topo pc pa us h = ROk x h' -> all_fit h' /\ uses_kept h h' /\ prog_kept h h'.
Proof.
  intros It To A. unfold load_units. destruct (unit_contexts sep pc us h) as [cps h1] eqn:Ec. destruct (contexts files _ _ _ _ _ _ Ec) as (F1 & _ & Hp).
  destruct (each_of (load_unit R files pc) cps h1) as [ps h2| | | |] eqn:El; cbn [rbind]; try discriminate.
  destruct (load_all _ _ _ _ _ El Hp (all_fit_none _ _ F1 A)) as (W2 & D2 & _ & M2 & A2).
  destruct (sort_units _ _ _ _ _) as [sorted|] eqn:Es; [|discriminate]. destruct (sorted_units _ _ _ _ _ It To D2 Es) as [Inc Nd].
  destruct (each_of (intf_of R) sorted h2) as [sorted1 h3| | | |] eqn:E3; cbn [rbind]; try discriminate.
  assert (W : Forall (waits g1 h2) sorted) by (rewrite Forall_forall in W2 |- *; auto).
  destruct (pass _ _ _ step_intf fair1 fair2 ready2 _ _ _ _ W Nd A2 E3) as (U3 & W3 & M3 & A3).
  destruct (each_of (impl_of R) sorted1 h3) as [sorted2 h4| | | |] eqn:E4; cbn [rbind]; try discriminate.
  destruct (pass _ _ _ step_impl fair2 fair3 ready3 _ _ _ _ W3 ltac:(rewrite U3; exact Nd) A3 E4) as (_ & _ & M4 & A4).
  pose proof (frame_new_map None h4) as F5. destruct (new_map h4) as [h5 um]. cbn [fst] in F5.
  destruct (name_units us (DImpl um) _ h5) as [y h6| | | |] eqn:E6; cbn [rbind]; try discriminate. apply name_all in E6.
  pose proof (frame_new_map None h6) as F7. destruct (new_map h6) as [h7 local]. cbn [fst] in F7.
  destruct (nth_error (h_ctxs h7) pc) as [co|]; [|discriminate]. destruct (nth_error (h_progs h7) pa) as [po|] eqn:Np; [|discriminate].
  set (h8 := ctx_put_map h7 pc _). pose proof (frame_put_map None h7 pc (DComposite ([DImpl local; DImpl um] ++ maps_reverse (units_maps h7 (map up_unit ps)) ++ [cx_map co]))) as F8. fold h8 in F8.
  assert (P8 : h_progs h8 = h_progs h7) by apply put_map_objs.
  set (h9 := with_progs _ h8).
  assert (F9 : frame None h8 h9).
  { destruct (frame_refl None h8) as [X1 X2 X3 X4]. constructor; [exact X1|exact X2|exact X3|]. intros a o No. cbn. destruct (Nat.eq_dec a pa) as [->|D].
    - rewrite P8 in *. rewrite No in Np. injection Np as <-. erewrite nth_set_hit by exact No. eexists. split; [reflexivity|]. now split.
    - rewrite nth_set_miss by exact D. eauto. }
  pose proof (map_set_objs h9 (DImpl local) [mkDecl (pr_ident po) (NProgram pa)]) as X.
  assert (K : forall h10, h_units h10 = h_units h9 /\ h_uses h10 = h_uses h9 /\ h_progs h10 = h_progs h9 -> all_fit h10 /\ uses_kept h h10 /\ prog_kept h h10).
  { intros h10 (Y1 & Y2 & Y3).
    assert (F : frame None h4 h10).
    { eapply frame_trans; [exact F5|]. eapply frame_trans; [exact E6|]. eapply frame_trans; [exact F7|]. eapply frame_trans; [exact F8|]. eapply frame_trans; [exact F9|]. now apply frame_same. }
    split; [exact (all_fit_none _ _ F A4)|].
    pose proof (many_trans _ _ _ _ _ (many_trans _ _ _ _ _ (frame_none_many _ _ F1) M2) (many_trans _ _ _ _ _ (many_trans _ _ _ _ _ M3 M4) (frame_none_many _ _ F))) as (Z1 & Z2 & _).
    auto. }
  destruct (map_set h9 _ _) as [h10|h10 i|]; [| |discriminate]; intros [= _ <-]; auto.
Qed.

(** ** The program *)

Definition head_f (h : heap) (i : ident) (l : option (list nat)) : form := cat (word "PROGRAM") (cat (name i) (cat (word ";") (uses_f h l))).
Lemma q_program_head pc text s : stands text s nothing -> wq (parse_program_head R pc) (fun r s' => exists o,
  nth_error (h_progs (s_heap s')) (fst r) = Some o /\ pr_block o = None /\ listed (s_heap s') (or_nil (snd r)) /\
  frame None (s_heap s) (s_heap s') /\ stands text s' (head_f (s_heap s') (pr_ident o) (snd r))) s.
Proof.
  intros A. unfold parse_program_head. apply wq_bind, sw_expect. intros t0 C0 K0.
  apply wq_bind, (sw_expect_next text nothing); [exact A|]. clear A. intros t s1 A1 C1 I1 H1. rewrite C0 in A1. apply wq_bind, wq_heap. intros pa h.
  destruct (ctx_path _ pc) as [p|]; [|discriminate]. intros [= <- <-]. set (o := mkProg p (new_ident t) None DNil).
  set (h2 := with_progs _ _). apply wq_bind.
  assert (F2 : frame None (s_heap s) h2).
  { rewrite <- H1. destruct (frame_refl None (s_heap s1)) as [X1 X2 X3 X4]. constructor; [exact X1|exact X2|exact X3|].
    intros a x No. exists x. split; [|now split]. cbn. rewrite nth_error_app1; [exact No|]. apply nth_error_Some. congruence. }
  assert (N2 : nth_error (h_progs h2) (length (h_progs (s_heap s1))) = Some o) by (cbn; rewrite nth_error_app2, Nat.sub_diag by lia; reflexivity).
  eapply (sw_expect_next text); [exact A1|]. intros t3 s3 A3 C3 K3 H3. cbn [s_heap s_cur with_heap] in H3, A3. rewrite C1 in A3.
  apply wq_bind, (sw_next text _ _ _ A3). intros s4 A4 H4. rewrite C3 in A4. apply wq_bind, sw_is. intros t4 _. apply wq_bind.
  eapply wq_weak; [apply (q_uses_if R (kw "USES" t4) _ _ _ A4)|cbv beta]. intros l s5 (A5 & L5 & F5). rewrite H4, H3 in F5. apply wq_ret. cbn [fst snd].
  destruct (fr_progs _ _ _ F5 _ _ N2) as (o' & N5 & I5 & B5). exists o'. split; [exact N5|]. split; [exact B5|]. split; [exact L5|].
  split; [eapply frame_trans; eassumption|]. rewrite I5. cbn [o pr_ident]. pose proof (ident_val _ I1) as V.
  eapply stands_weak; [exact A5|]. intros ws W. unfold head_f. words.
Qed.
Lemma q_program_rest pa l text o s : nth_error (h_progs (s_heap s)) pa = Some o -> listed (s_heap s) (or_nil l) ->
  stands text s (head_f (s_heap s) (pr_ident o) l) -> wq (parse_program_rest R pa l) (fun pa' s' => pa' = pa /\
  h_units (s_heap s') = h_units (s_heap s) /\ h_uses (s_heap s') = h_uses (s_heap s) /\
  exists o', nth_error (h_progs (s_heap s')) pa = Some o' /\ stands text s' (program_f (s_heap s') o') /\ full_stop (s_cur s')) s.
Proof.
  intros N L A. unfold parse_program_rest. apply wq_bind. eapply wq_takes; [apply (f_parse_block R RF)|apply (i_parse_block R RS)|exact A|].
  intros b s1 A1 (S1 & S2 & S3). apply wq_bind, wq_heap. intros x h. rewrite S3, N. intros [= _ <-].
  apply wq_bind. set (h2 := with_progs _ _). apply sw_expect. cbn [s_cur with_heap]. intros t C K. apply wq_ret.
  split; [reflexivity|]. split; [exact S1|]. split; [exact S2|]. eexists. split; [cbn; eapply nth_set_hit, N|].
  assert (Ku : uses_kept (s_heap s) h2) by (intros a y Y; exists y; cbn; rewrite S2; auto).
  split; [|exists t; split; [exact C|now apply sym_val]]. cbn [s_heap with_heap]. eapply stands_weak; [exact A1|].
  unfold program_f, head_f. cbn [pr_block pr_ident pb_uses pb_block]. rewrite (uses_f_kept _ _ _ Ku L). intros ws W. words.
Qed.
Lemma program_fits sep order topo path pa pc h : iterates order -> lists_once topo ->
  parse_program R files sep order topo path = ROk (pa, pc) h ->
  (exists text o ws, files path = Some text /\ nth_error (h_progs h) pa = Some o /\ up_to_stop text ws /\ program_f h o ws) /\ all_fit h.
Proof.
  intros It To. unfold parse_program. destruct (files path) as [text|] eqn:F; [|discriminate].
  assert (H0 : h_units (fst (new_program_context heap0 path)) = []) by reflexivity.
  destruct (new_program_context heap0 path) as [h0 c]. cbn [fst] in H0.
  pose proof (sw_next text nothing (fun _ s' => stands text s' (cat nothing (eq [])) /\ s_heap s' = h0) _ (stands_start text c h0) (fun s' A E => conj A E)) as X. unfold wq in X.
  destruct (run Next _) as [o0 s| | | |]; try discriminate. destruct X as [A0 E0].
  apply stands_weak with (F' := nothing) in A0; [|intros ws W; words].
  assert (Fit0 : all_fit (s_heap s)) by (intros k o; rewrite E0, H0; now destruct k).
  unfold parse_program_at. pose proof (q_program_head c _ _ A0) as X. unfold wq in X.
  destruct (run (parse_program_head R c) s) as [[pa1 l] s1| | | |]; cbn [on_parser rbind]; try discriminate. cbn [fst snd] in X.
  destruct X as (o1 & N1 & B1 & L1 & F1 & A1). pose proof (all_fit_none _ _ F1 Fit0) as Fit1.
  destruct (match l with Some us => load_units R files sep order topo c pa1 us (s_heap s1) | None => ROk tt (s_heap s1) end) as [y h2| | | |] eqn:E2; cbn [rbind]; try discriminate.
  assert (Y : all_fit h2 /\ uses_kept (s_heap s1) h2 /\ prog_kept (s_heap s1) h2).
  { destruct l as [us|]; [eapply load_units_fit; eassumption|]. injection E2 as _ <-. destruct (frame_refl None (s_heap s1)). auto. }
  destruct Y as (Fit2 & K2 & P2). destruct (P2 _ _ N1) as (o2 & N2 & I2 & _).
  assert (A2 : stands text (with_heap h2 s1) (head_f (s_heap (with_heap h2 s1)) (pr_ident o2) l)).
  { cbn [s_heap with_heap]. unfold head_f. rewrite I2, (uses_f_kept _ _ _ K2 L1). exact A1. }
  pose proof (q_program_rest pa1 l text o2 (with_heap h2 s1) N2 (listed_kept _ _ _ K2 L1) A2) as X. unfold wq in X.
  destruct (run (parse_program_rest R pa1 l) _) as [pa2 s3| | | |]; cbn [on_parser rbind fst snd]; try discriminate. intros [= -> -> <-].
  destruct X as (-> & U3 & V3 & o3 & N3 & (_ & ws & S3 & W3) & C3). cbn [s_heap with_heap] in U3, V3. split.
  - exists text, o3, ws. split; [reflexivity|]. split; [exact N3|]. split; [eapply behind_stop; eauto|exact W3].
  - intros k o No. rewrite U3 in No. eapply fitted_kept; [|apply tree_same_refl|exact (Fit2 _ _ No)]. intros a z Z. exists z. rewrite V3. auto.
Qed.
End Files.

(** ** The theorems *)

Lemma text_takes {A} (p : prog A) (F : A -> list gostring -> option token -> Prop) text c h a s : (forall c, takes [] c p F) ->
  parse_text p text c h = OOk a s -> exists ws, stops_behind text ws s /\ F a ws (s_cur s).
Proof.
  intros T E. unfold parse_text in E. set (s0 := mkPst _ None c [] h) in E. cbn [run] in E.
  destruct (next_token s0) as [o s1| | | |] eqn:E1; try discriminate.
  assert (P0 : parsing text s0) by apply parser_starts_well.
  assert (P1 : parsing text s1) by (apply (run_parsing Next text s0); [exact P0|left; exists o; exact E1]).
  destruct (got_next s0 o s1 E1) as [G1 _].
  destruct (T (s_cur s1) text s1 s1 a s P1 (got_refl s1) eq_refl E) as (ws & G2 & H). exists ws. split; [|exact H].
  exact (got_trans text s0 s1 s [] ws P1 G1 G2).
Qed.
Theorem accepted_expressions_are_written_so :
  forall n text c h e s, parse_text (parse_expression (recs_at n)) text c h = OOk e s ->
  exists ws, stops_behind text ws s /\ expr_f e ws.
Proof. intros n text c h e s. apply text_takes with (F := fun e ws _ => expr_f e ws). intros c'. apply f_parse_expression, recs_forms_at. Qed.
Theorem accepted_types_are_written_so :
  forall n text c h t s, parse_text (parse_type (recs_at n)) text c h = OOk t s ->
  exists ws, stops_behind text ws s /\ typ_f t ws.
Proof. intros n text c h e s. apply text_takes with (F := fun e ws _ => typ_f e ws). intros c'. apply f_parse_type, recs_forms_at. Qed.
Theorem accepted_statements_are_written_so :
  forall n text c h x s, parse_text (parse_statement (recs_at n)) text c h = OOk x s ->
  exists ws, stops_behind text ws s /\ stmt_f x ws.
Proof. intros n text c h e s. apply text_takes with (F := fun e ws _ => stmt_f e ws). intros c'. apply f_parse_statement, recs_forms_at. Qed.
Theorem accepted_blocks_are_written_so :
  forall n text c h b s, parse_text (parse_block (recs_at n)) text c h = OOk b s ->
  exists ws, stops_behind text ws s /\ block_f b ws.
Proof. intros n text c h e s. apply text_takes with (F := fun e ws _ => block_f e ws). intros c'. apply f_parse_block, recs_forms_at. Qed.
Theorem accepted_units_are_written_so :
  forall n text c h u s, parse_text (parse_unit (recs_at n) c) text c h = OOk u s ->
  exists o ws, nth_error (h_units (s_heap s)) u = Some o /\ stops_behind text ws s /\ up_to_stop text ws /\ unit_f (s_heap s) o ws.
Proof.
  intros n text c h u s E. unfold parse_text in E. set (s0 := mkPst _ None c [] h) in E.
  assert (X : wq (Bind Next (fun _ => parse_unit (recs_at n) c)) (fun u s' => exists path, held text h u (f6 path) whole nothing s' /\ full_stop (s_cur s')) s0).
  { apply wq_bind, (sw_next text nothing); [apply stands_start|]. intros s1 A1 H1. cbn [s_cur s0] in A1. apply stands_weak with (F' := nothing) in A1; [|intros ws W; words].
    eapply wq_weak; [apply (q_unit (recs_at n) (recs_at_spelled n) (recs_forms_at n) c _ _ A1)|cbv beta]. rewrite H1. intros u' s' (path & _ & H). eauto. }
  unfold wq in X. rewrite E in X. destruct X as (path & (_ & o & No & L & (q1 & q2 & q3) & _ & ws & S & W) & C). exists o, ws. split; [exact No|]. split; [exact S|].
  split; [eapply behind_stop; eauto|]. split; [exact q2|]. split; [exact q3|]. destruct W as (a & b & -> & A & B). destruct B. rewrite app_nil_r. exact A.
Qed.
Theorem accepted_programs_are_written_so :
  forall n files sep order topo path pa pc h, iterates order -> lists_once topo ->
  parse_program (recs_at n) files sep order topo path = ROk (pa, pc) h ->
  (exists text o ws, files path = Some text /\ nth_error (h_progs h) pa = Some o /\ up_to_stop text ws /\ program_f h o ws) /\
  (forall u o, nth_error (h_units h) u = Some o -> exists text ws, files (un_path o) = Some text /\
     (up_to_stop text ws /\ unit_f h o ws \/
      begins_with text ws /\ un_impl o = None /\ un_init o = None /\ unit_front h o ws)).
Proof.
  intros n files sep order topo path pa pc h It To E. destruct (program_fits _ (recs_at_spelled n) (recs_forms_at n) _ _ _ _ _ _ _ _ It To E) as [X Y].
  split; [exact X|]. intros u o No. destruct (Y u o No) as (text & ws & F & _ & A). eauto.
Qed.

(** ** Words and lexemes *)
Lemma value_lex t : value t = lex_value (lexeme_of t).
Proof. reflexivity. Qed.
Lemma went_reads k c ws k2 c2 : went_over k c ws k2 c2 -> forall ts e k', reads k (ts ++ [e]) k' -> get_next k' = GTok e k' ->
  exists rest n, ws ++ rest = left_behind c ++ map value ts ++ repeat (value e) n.
Proof.
  induction 1 as [k c|k c t k1 ws k2 c2 G W IH|k c k1 ws k2 c2 G W IH]; intros ts e k' Re Ge.
  - exists (left_behind c ++ map value ts), 0. cbn [repeat]. now rewrite app_nil_r.
  - destruct ts as [|t1 ts]; cbn [app] in Re; inversion Re as [|? ? kx ? ? Gx Rx]; subst; rewrite G in Gx; injection Gx as -> ->.
    + inversion Rx; subst. destruct (IH [] e k') as (rest & n & E); [cbn; econstructor; [exact Ge|constructor]|exact Ge|].
      exists rest, (S n). rewrite <- app_assoc, E. reflexivity.
    + destruct (IH _ _ _ Rx Ge) as (rest & n & E). exists rest, n. rewrite <- app_assoc, E. reflexivity.
  - destruct ts as [|t1 ts]; cbn [app] in Re; inversion Re as [|? ? kx ? ? Gx Rx]; subst; rewrite G in Gx; discriminate.
Qed.
Lemma reads_held text k ts k' : LexSpec.held text k -> reads k ts k' -> LexSpec.held text k'.
Proof. intros H Re. induction Re as [k|k t k1 ts k2 G Re IH]; [exact H|]. apply IH. eapply held_tok; eauto. Qed.
Lemma reads_end k ts e k' : reads k (ts ++ [e]) k' -> exists k1, reads k ts k1 /\ get_next k1 = GTok e k'.
Proof.
  revert k. induction ts as [|t ts IH]; intros k Re; cbn [app] in Re; inversion Re as [|? ? k1 ? ? G Rx]; subst.
  - inversion Rx; subst. exists k. split; [constructor|exact G].
  - destruct (IH _ Rx) as (k2 & R2 & G2). exists k2. split; [econstructor; eauto|exact G2].
Qed.
Theorem words_gone_over_are_the_lexemes :
  forall ls text ws, written ls text -> begins_with text ws ->
  exists rest n, ws ++ rest = map lex_value ls ++ repeat [] n.
Proof.
  intros ls text ws Wr (k & c & W). destruct (lexical_round_trip _ _ Wr) as (ts & e & k' & Re & <- & Te & Se).
  destruct (reads_end _ _ _ _ Re) as (k1 & R1 & G1).
  assert (H1 : LexSpec.held text k1) by (eapply reads_held; [apply held_new|exact R1]).
  pose proof (eof_absorbing _ _ _ _ H1 G1 Te 1) as Ge. cbn [repeat] in Ge. inversion Ge as [|? ? k2 ? ? G2 R2]; subst. inversion R2; subst.
  destruct (went_reads _ _ _ _ _ W _ _ _ Re G2) as (rest & n & E). exists rest, n. cbn [left_behind app] in E. rewrite E.
  assert (Tk : token_of text e) by (exists k1, k'; auto). destruct (token_of_fits _ _ Tk) as (X & _).
  assert (V : value e = []).
  { unfold value. rewrite Te. unfold raw, slice. rewrite X. unfold start_of in Se. rewrite Se, skipn_all. apply firstn_nil. }
  rewrite V, map_map. reflexivity.
Qed.
End WithUnicode.
