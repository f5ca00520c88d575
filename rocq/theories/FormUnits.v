(** What is accepted for a unit is written as it: the methods of Units.v, in their order. *)
From Coq Require Import String List NArith Bool Arith Lia Permutation.
From Verif Require Import ListUtil Runes Token Tokenizer LexShape Ast Ext ExtMain Heap Classes MapFacts Prog Parser Units ParseSpec RunFacts UnitSpec SortMain ProgramLinkFacts RefUnits IdSpec IdFacts IdParse IdUnits FormSpec FormFacts FormParse FormStmt.
Import ListNotations.
Local Open Scope list_scope.

Ltac words := cbn [left_behind] in *; norm; repeat match goal with H : _ = ?x |- _ => is_var x; subst x end; mem.
Section WithUnicode.
Context {U : Unicode} {UOK : UnicodeOk U}.

(** ** Trees in another heap *)
Lemma use_f_kept h h' a : uses_kept h h' -> nth_error (h_uses h) a <> None -> use_f h' a = use_f h a.
Proof.
  intros K N. unfold use_f. destruct (nth_error (h_uses h) a) as [o|] eqn:E; [|congruence]. destruct (K a o E) as (o' & -> & -> & ->). reflexivity.
Qed.
Lemma map_use_kept h h' l : uses_kept h h' -> listed h l -> map (use_f h') l = map (use_f h) l.
Proof. intros K L. apply map_ext_in. intros a J. apply use_f_kept; [exact K|exact (L a J)]. Qed.
Lemma uses_f_kept h h' l : uses_kept h h' -> listed h (or_nil l) -> uses_f h' l = uses_f h l.
Proof. intros K L. destruct l as [l|]; [|reflexivity]. unfold uses_f. cbn [FormSpec.opt]. now rewrite (map_use_kept h h' l K L). Qed.
Lemma front_kept h h' o o' : uses_kept h h' -> tree_same o o' -> unit_listed h o -> unit_front h' o' = unit_front h o.
Proof.
  intros K (_ & A & P & B & C & D) [L1 L2]. unfold unit_front. rewrite A, B, C, D, P.
  assert (X : FormSpec.opt (intf_f h') (un_intf o) = FormSpec.opt (intf_f h) (un_intf o)).
  { destruct (un_intf o) as [s|]; [|reflexivity]. cbn [FormSpec.opt]. unfold intf_f. now rewrite (uses_f_kept h h' _ K (L1 s eq_refl)). }
  assert (Y : FormSpec.opt (impl_f h') (un_impl o) = FormSpec.opt (impl_f h) (un_impl o)).
  { destruct (un_impl o) as [s|]; [|reflexivity]. cbn [FormSpec.opt]. unfold impl_f. now rewrite (uses_f_kept h h' _ K (L2 s eq_refl)). }
  now rewrite X, Y.
Qed.

(** ** Running *)

(** The parser has words of the form [F] behind it. *)
Definition stands (text : list rune) (s : pst) (F : form) : Prop := parsing text s /\ exists ws, stops_behind text ws s /\ F ws.
Lemma stands_weak text s (F F' : form) : stands text s F -> (forall ws, F ws -> F' ws) -> stands text s F'.
Proof. intros (P & ws & S & H) W. split; [exact P|]. exists ws. auto. Qed.
Lemma stands_start text c h : stands text (mkPst (new_tokenizer text false false) None c [] h) nothing.
Proof.
  split; [apply parser_starts_well|]. exists []. split; [|reflexivity].
  exists (new_tokenizer text false false), None. split; [constructor|]. split; [apply same_spot_refl|exact I].
Qed.
Lemma stands_went text s ws s' F : stands text s F -> got s ws s' -> parsing text s' -> stands text s' (cat F (eq ws)).
Proof.
  intros (P & pre & S & H) G P'. split; [exact P'|]. exists (pre ++ ws). split; [|now apply cat_app].
  exact (got_trans text (mkPst (new_tokenizer text false false) None 0 [] heap0) s s' pre ws P S G).
Qed.
Lemma objs_of {A} (p : prog A) F f text s a s' : spelled [] nowhere None F p f -> parsing text s -> run p s = OOk a s' -> same_objs s s'.
Proof.
  intros T P E. assert (B : behind text 0 s [] nowhere) by (exists 0; split; [cbn; lia|left; lia]).
  specialize (T text 0 s P B Logic.I). rewrite E in T. apply T.
Qed.
Lemma wq_takes {A} text G (p : prog A) Fi fi (F : A -> list gostring -> option token -> Prop) (K : A -> pst -> Prop) s :
  (forall c, takes [] c p F) -> spelled [] nowhere None Fi p fi -> stands text s G ->
  (forall a s', stands text s' (cat G (fun ws => F a ws (s_cur s'))) -> same_objs s s' -> K a s') -> wq p K s.
Proof.
  intros T Sp (P & pre & S & H) Q. unfold wq. destruct (run p s) as [a s'| | | |] eqn:E; auto.
  destruct (T (s_cur s) text s s a s' P (got_refl s) eq_refl E) as (ws & G1 & H1).
  assert (P1 : parsing text s') by (apply (run_parsing p text s); [exact P|left; eauto]). apply Q; [|eapply objs_of; eauto].
  split; [exact P1|]. exists (pre ++ ws). split; [|now apply cat_app].
  exact (got_trans text (mkPst (new_tokenizer text false false) None 0 [] heap0) s s' pre ws P S G1).
Qed.
Lemma sw_next text G (K : option token -> pst -> Prop) s : stands text s G ->
  (forall s', stands text s' (cat G (eq (left_behind (s_cur s)))) -> s_heap s' = s_heap s -> K (s_cur s') s') -> wq Next K s.
Proof.
  intros A Q. unfold wq. destruct (run Next s) as [o s'| | | |] eqn:E; auto. destruct (got_next _ _ _ E) as [G1 ->].
  assert (P1 : parsing text s') by (apply (run_parsing Next text s); [apply A|left; eauto]).
  apply Q; [eapply stands_went; eauto|eapply heap_next, E].
Qed.
Lemma sw_nexttok text G (K : token -> pst -> Prop) s : stands text s G ->
  (forall t s', stands text s' (cat G (eq (left_behind (s_cur s)))) -> s_cur s' = Some t -> s_heap s' = s_heap s -> K t s') -> wq next K s.
Proof.
  intros A Q. unfold next. apply wq_bind, (sw_next text G); [exact A|]. intros s' A' H. destruct (s_cur s') as [t|] eqn:C; [apply wq_ret; auto|exact Logic.I].
Qed.
Lemma sw_expect q (K : token -> pst -> Prop) s : (forall t, s_cur s = Some t -> q t = true -> K t s) -> wq (expect q) K s.
Proof.
  intros Q. unfold wq, expect. cbn [run]. destruct (s_cur s) as [t|] eqn:C; [|exact Logic.I]. cbn [validate].
  destruct (q t) eqn:E; cbn [run]; [now apply Q|]. now destruct (ctx_path _ _).
Qed.
Lemma sw_expect_next text G q (K : token -> pst -> Prop) s : stands text s G ->
  (forall t s', stands text s' (cat G (eq (left_behind (s_cur s)))) -> s_cur s' = Some t -> q t = true -> s_heap s' = s_heap s -> K t s') -> wq (expect_next q) K s.
Proof.
  intros A Q. unfold expect_next. apply wq_bind, (sw_next text G); [exact A|]. intros s' A' H. unfold wq.
  destruct (s_cur s') as [t|] eqn:C; cbn [validate]; [|exact Logic.I]. destruct (q t) eqn:E; cbn [run]; [now apply Q|]. now destruct (ctx_path _ _).
Qed.
Lemma sw_is q (K : bool -> pst -> Prop) s : (forall t, s_cur s = Some t -> K (q t) s) -> wq (is q) K s.
Proof. intros Q. unfold wq, is, cur. cbn [run]. destruct (s_cur s) as [t|]; cbn [run]; auto. Qed.

(** ** Uses clauses *)

Lemma use_f_new h o : use_f (with_uses (h_uses h ++ [o]) h) (length (h_uses h)) = cat (name (u_ident o)) (FormSpec.opt (fun p => cat (word "IN") (say p)) (u_path o)).
Proof. unfold use_f. cbn. rewrite nth_error_app2, Nat.sub_diag by lia. reflexivity. Qed.
Lemma q_uses_item text G s : stands text s G -> wq parse_uses_item (fun a s' =>
  stands text s' (cat G (use_f (s_heap s') a)) /\ nth_error (h_uses (s_heap s')) a <> None /\ frame None (s_heap s) (s_heap s')) s.
Proof.
  intros A. unfold parse_uses_item. apply wq_bind, sw_expect. intros t C I0.
  apply wq_bind, (sw_nexttok text G); [exact A|]. intros t2 s1 A1 C1 H1. rewrite C in A1. apply wq_bind.
  assert (E : forall path s2, stands text s2 (cat G (cat (name (new_ident t)) (FormSpec.opt (fun p => cat (word "IN") (say p)) path))) -> s_heap s2 = s_heap s ->
    wq (new_uses (mkUses (new_ident t) path None)) (fun a s' =>
      stands text s' (cat G (use_f (s_heap s') a)) /\ nth_error (h_uses (s_heap s')) a <> None /\ frame None (s_heap s) (s_heap s')) s2).
  { intros path s2 A2 H2. apply wq_heap. intros a h [= <- <-]. cbn [s_heap with_heap]. rewrite use_f_new. split; [exact A2|]. split.
    - cbn. rewrite nth_error_app2, Nat.sub_diag by lia. discriminate.
    - rewrite <- H2. apply frame_new_uses. }
  pose proof (ident_val _ I0) as V.
  destruct (kw "IN" t2) eqn:K.
  - apply wq_bind, (sw_nexttok text _ _ _ A1). intros t3 s2 A2 C2 H2. rewrite C1 in A2. apply wq_bind.
    unfold wq at 1. destruct (run (parse_string_factor t3 false) s2) as [v s3| | | |] eqn:E3; auto.
    destruct (f_parse_string_factor t3 false text s2 s2 v s3 (proj1 A2) (got_refl s2) C2 E3) as (ws & G3 & W3); cbv beta in W3; red in W3; subst ws.
    assert (P3 : parsing text s3) by (apply (run_parsing (parse_string_factor t3 false) text s2); [apply A2|left; eauto]).
    assert (H3 : s_heap s3 = s_heap s2).
    { unfold parse_string_factor in E3. destruct (_ || _); [|cbn [run] in E3; destruct (ctx_path _ _); discriminate].
      rewrite run_bind in E3. destruct (run Next s2) as [o s4| | | |] eqn:E4; try discriminate. cbn [run] in E3. injection E3 as _ <-. eapply heap_next, E4. }
    apply wq_ret, E; [|congruence]. eapply stands_weak; [exact (stands_went _ _ _ _ _ A2 G3 P3)|].
    intros ws' W. cbn [left_behind] in W. words.
  - apply wq_ret, E; [|exact H1]. eapply stands_weak; [exact A1|]. intros ws' W. cbn [left_behind] in W. words.
Qed.
Lemma between_uses h w l a : between w (map (use_f h) (l ++ [a])) = between w (map (use_f h) l ++ [use_f h a]).
Proof. now rewrite map_app. Qed.
Lemma q_uses_list n te w text G s : stands text s G -> wq (until_list n te (Some (sym w)) parse_uses_item) (fun l s' =>
  stands text s' (cat G (between w (map (use_f (s_heap s')) l))) /\ listed (s_heap s') l /\ frame None (s_heap s) (s_heap s') /\
  exists t, s_cur s' = Some t /\ te t = true) s.
Proof.
  intros A. unfold until_list, until.
  apply (wq_loop (fun l s' => stands text s' (cat G (ended w (map (use_f (s_heap s')) l))) /\ listed (s_heap s') l /\ frame None (s_heap s) (s_heap s'))).
  2:{ cbn [map]. split; [eapply stands_weak; [exact A|]; intros ws W; words|]. split; [intros a []|apply frame_refl]. }
  clear A. intros l s1 (A & L & F). unfold until_step, append_with. apply wq_bind, wq_bind.
  eapply wq_weak; [apply (q_uses_item _ _ _ A)|cbv beta]. intros a s2 (A2 & N2 & F2). apply wq_ret.
  assert (L2 : listed (s_heap s2) (l ++ [a])).
  { apply listed_app; [eapply listed_kept; [exact (frame_uses_of _ _ _ F2)|exact L]|]. intros b [<-|[]]. exact N2. }
  assert (F3 : frame None (s_heap s) (s_heap s2)) by (eapply frame_trans; eassumption).
  rewrite <- (map_use_kept _ _ l (frame_uses_of _ _ _ F2) L) in A2.
  apply wq_bind. unfold wq at 1. cbn [run]. destruct (s_cur s2) as [t|] eqn:C; [|exact Logic.I]. destruct (te t) eqn:Te.
  - apply wq_ret. split; [|eauto]. eapply stands_weak; [exact A2|]. intros ws W. words.
  - apply wq_bind. cbn [validate]. destruct (sym w t) eqn:Sy; [|unfold wq; cbn [run]; now destruct (ctx_path _ _)]. apply wq_ret.
    apply wq_bind, (sw_next text _ _ _ A2). intros s3 A3 H3. apply wq_ret. rewrite H3. split; [|auto].
    eapply stands_weak; [exact A3|]. intros ws W. rewrite C in W. cbn [left_behind] in W. words.
Qed.
Lemma q_set_uses text G : forall l s, stands text s G ->
  wq (set_uses l) (fun _ s' => stands text s' G /\ s_cur s' = s_cur s /\ frame None (s_heap s) (s_heap s')) s.
Proof.
  induction l as [|a l IH]; intros s A; cbn [set_uses]; [apply wq_ret; split; [exact A|split; [reflexivity|apply frame_refl]]|].
  apply wq_bind, wq_heap. intros x h. destruct (nth_error _ a) as [o|]; [|discriminate].
  pose proof (ctx_set_objs (s_heap s) (s_ctx s) [mkDecl (u_ident o) (NUses a)]) as X.
  destruct (ctx_set _ _ _) as [h'|h' i|]; try discriminate. intros [= _ <-]. destruct X as (X1 & X2 & X3).
  eapply wq_weak; [apply (IH (with_heap h' s)); exact A|cbv beta]. intros _ s' (A' & C' & F'). split; [exact A'|]. split; [exact C'|].
  eapply frame_trans; [apply (frame_same _ _ h'); assumption|exact F'].
Qed.
Section Level.
Context (R : recs) (RS : recs_spelled R) (RF : recs_forms R).
Lemma q_uses_next text G s : stands text s G -> wq (parse_uses_next R) (fun l s' =>
  stands text s' (cat G (uses_f (s_heap s') (Some l))) /\ listed (s_heap s') l /\ frame None (s_heap s) (s_heap s')) s.
Proof.
  intros A. unfold parse_uses_next, parse_uses_clause. apply wq_bind, wq_bind, sw_expect. intros t C K.
  apply wq_bind, (sw_next text G); [exact A|]. intros s1 A1 H1. rewrite C in A1. apply wq_bind.
  eapply wq_weak; [apply (q_uses_list _ _ _ _ _ _ A1)|cbv beta]. intros l s2 (A2 & L2 & F2 & t2 & C2 & T2). apply wq_bind.
  eapply wq_weak; [apply (q_set_uses _ _ _ _ A2)|cbv beta]. intros _ s3 (A3 & C3 & F3). apply wq_ret, wq_bind, (sw_next text _ _ _ A3).
  intros s4 A4 H4. rewrite C3, C2 in A4. apply wq_ret. rewrite H4. rewrite <- (map_use_kept _ _ l (frame_uses_of _ _ _ F3) L2) in A4. split.
  - eapply stands_weak; [exact A4|]. intros ws W. unfold uses_f. cbn [left_behind] in W. words.
  - split; [eapply listed_kept; [exact (frame_uses_of _ _ _ F3)|exact L2]|]. rewrite <- H1. eapply frame_trans; eassumption.
Qed.
(** With or without *)
Lemma q_uses_if (b : bool) text G s : stands text s G ->
  wq (if b then Bind (parse_uses_next R) (fun l => Ret (Some l)) else Ret None) (fun l s' =>
  stands text s' (cat G (uses_f (s_heap s') l)) /\ listed (s_heap s') (or_nil l) /\ frame None (s_heap s) (s_heap s')) s.
Proof.
  intros A. destruct b.
  - apply wq_bind. eapply wq_weak; [apply (q_uses_next _ _ _ A)|cbv beta]. intros l s1 X. now apply wq_ret.
  - apply wq_ret. split; [|split; [intros a []|apply frame_refl]]. eapply stands_weak; [exact A|]. intros ws W. cbn. words.
Qed.

(** ** A unit that is being parsed *)

(** The tree up to the exports of the implementation section; the rest is missing *)
Definition impl_open (h : heap) (s : implsection) : form :=
  cat (word "IMPLEMENTATION") (cat (uses_f h (im_uses s))
    (cat (FormSpec.opt (fun l => row (map (fun d => cat (declsection_f d) (maybe (word ";"))) l)) (im_decls s)) (FormSpec.opt exports_f (im_exports s)))).
Definition front (h : heap) (o : unitobj) : form :=
  cat (word "UNIT") (cat (name (un_ident o)) (cat (FormSpec.opt say (un_port o)) (cat (maybe (word ";"))
    (cat (FormSpec.opt (intf_f h) (un_intf o)) (FormSpec.opt (impl_open h) (un_impl o)))))).
Definition whole (h : heap) (o : unitobj) : form := cat (unit_front h o) (word "END").
Definition of_heap (fr : heap -> unitobj -> form) : Prop := forall h h' o o', uses_kept h h' -> tree_same o o' -> unit_listed h o -> fr h' o' = fr h o.
Lemma heap_unit_front : of_heap unit_front.
Proof. intros h h' o o'. apply front_kept. Qed.
Lemma heap_whole : of_heap whole.
Proof. intros h h' o o' K S L. unfold whole. now rewrite (front_kept _ _ _ _ K S L). Qed.
Lemma heap_front : of_heap front.
Proof.
  intros h h' o o' K (_ & A & P & B & C & D) [L1 L2]. unfold front. rewrite A, B, C, P.
  assert (X : FormSpec.opt (intf_f h') (un_intf o) = FormSpec.opt (intf_f h) (un_intf o)).
  { destruct (un_intf o) as [s|]; [|reflexivity]. cbn [FormSpec.opt]. unfold intf_f. now rewrite (uses_f_kept h h' _ K (L1 s eq_refl)). }
  assert (Y : FormSpec.opt (impl_open h') (un_impl o) = FormSpec.opt (impl_open h) (un_impl o)).
  { destruct (un_impl o) as [s|]; [|reflexivity]. cbn [FormSpec.opt]. unfold impl_open. now rewrite (uses_f_kept h h' _ K (L2 s eq_refl)). }
  now rewrite X, Y.
Qed.

(** The parser is behind the tree of the unit [u] and then [E]; the other objects are those of
    [h0]. *)
Definition held (text : list rune) (h0 : heap) (u : nat) (Q : unitobj -> Prop) (fr : heap -> unitobj -> form) (E : form) (s : pst) : Prop :=
  frame (Some u) h0 (s_heap s) /\
  exists o, nth_error (h_units (s_heap s)) u = Some o /\ unit_listed (s_heap s) o /\ Q o /\ stands text s (cat (fr (s_heap s) o) E).
Lemma held_objs text h0 u Q fr E E' s s' : held text h0 u Q fr E s -> frame None (s_heap s) (s_heap s') -> of_tree Q -> of_heap fr ->
  (forall G, stands text s (cat G E) -> stands text s' (cat G E')) -> held text h0 u Q fr E' s'.
Proof.
  intros (F & o & N & L & q & A) F' T H C. destruct (fr_units _ _ _ F' u ltac:(discriminate) o N) as (o' & N' & S).
  split; [eapply frame_trans; [exact F|now apply frame_more]|]. exists o'. split; [exact N'|].
  split; [eapply unit_listed_kept; [exact (frame_uses_of _ _ _ F')|exact S|exact L]|]. split; [eapply T; eauto|].
  rewrite (H _ _ _ _ (frame_uses_of _ _ _ F') S L). auto.
Qed.
Lemma held_heap text h0 u Q fr E s h : held text h0 u Q fr E s -> frame None (s_heap s) h -> of_tree Q -> of_heap fr -> held text h0 u Q fr E (with_heap h s).
Proof. intros H F T K. eapply held_objs; [exact H|exact F|exact T|exact K|auto]. Qed.
Lemma held_put text h0 u (Q Q' : unitobj -> Prop) fr fr' E E' s g : held text h0 u Q fr E s -> of_heap fr' ->
  (forall o, unit_listed (s_heap s) o -> Q o ->
     (forall ws, cat (fr (s_heap s) o) E ws -> cat (fr' (s_heap s) (g o)) E' ws) /\ unit_listed (s_heap s) (g o) /\ Q' (g o)) ->
  held text h0 u Q' fr' E' (with_heap (put_unit (s_heap s) u g) s).
Proof.
  intros (F & o & N & L & q & A) H T. cbn [held s_heap with_heap]. split; [eapply frame_trans; [exact F|apply frame_put]|].
  exists (g o). destruct (T o L q) as (S & T1 & T2). cbn [s_heap with_heap]. split; [now apply put_unit_hit|].
  assert (Us : h_uses (put_unit (s_heap s) u g) = h_uses (s_heap s)) by (unfold put_unit; now destruct (nth_error _ _)).
  assert (K : uses_kept (s_heap s) (put_unit (s_heap s) u g)) by (intros a x X; exists x; rewrite Us; auto).
  split; [eapply unit_listed_kept; [exact K|apply tree_same_refl|exact T1]|]. split; [exact T2|].
  rewrite (H _ _ (g o) (g o) K (tree_same_refl _) T1). exact (stands_weak _ _ _ _ A S).
Qed.
Lemma held_weak text h0 u (Q Q' : unitobj -> Prop) (fr fr' : heap -> unitobj -> form) E E' s :
  (forall o, Q o -> Q' o /\ forall ws, cat (fr (s_heap s) o) E ws -> cat (fr' (s_heap s) o) E' ws) -> held text h0 u Q fr E s -> held text h0 u Q' fr' E' s.
Proof.
  intros W (F & o & N & L & q & A). split; [exact F|]. exists o. destruct (W o q) as [W1 W2]. repeat (split; [assumption|]).
  eapply stands_weak; [exact A|exact W2].
Qed.
Lemma held_takes {A} text h0 u Q fr E (p : prog A) Fi fi (F : A -> list gostring -> option token -> Prop) s :
  (forall c, takes [] c p F) -> spelled [] nowhere None Fi p fi -> held text h0 u Q fr E s -> of_tree Q -> of_heap fr ->
  wq p (fun a s' => held text h0 u Q fr (cat E (fun ws => F a ws (s_cur s'))) s') s.
Proof.
  intros T Sp (Fr & o & N & L & q & X) O K. eapply wq_takes; [exact T|exact Sp|exact X|]. intros a s' A' S.
  destruct S as (S1 & S2 & S3). assert (F' : frame None (s_heap s) (s_heap s')) by (apply frame_same; assumption).
  split; [eapply frame_trans; [exact Fr|now apply frame_more]|]. exists o. rewrite S1. split; [exact N|].
  split; [eapply unit_listed_kept; [exact (frame_uses_of _ _ _ F')|apply tree_same_refl|exact L]|]. split; [exact q|].
  rewrite (K _ _ _ _ (frame_uses_of _ _ _ F') (tree_same_refl _) L). eapply stands_weak; [exact A'|].
  intros ws (a1 & a2 & -> & (b1 & b2 & -> & B1 & B2) & A2). rewrite <- app_assoc. apply cat_app; [exact B1|]. now apply cat_app.
Qed.
Lemma held_next text h0 u Q fr E (K : option token -> pst -> Prop) s : held text h0 u Q fr E s ->
  (forall s', held text h0 u Q fr (cat E (eq (left_behind (s_cur s)))) s' -> s_heap s' = s_heap s -> K (s_cur s') s') -> wq Next K s.
Proof.
  intros (F & o & N & L & q & A) W. eapply sw_next; [exact A|]. intros s' A' H. apply W; [|exact H]. unfold held. rewrite H.
  split; [exact F|]. exists o. repeat (split; [assumption|]). eapply stands_weak; [exact A'|].
  intros ws (a1 & a2 & -> & (b1 & b2 & -> & B1 & B2) & A2). rewrite <- app_assoc. apply cat_app; [exact B1|]. now apply cat_app.
Qed.
Lemma held_nexttok text h0 u Q fr E (K : token -> pst -> Prop) s : held text h0 u Q fr E s ->
  (forall t s', held text h0 u Q fr (cat E (eq (left_behind (s_cur s)))) s' -> s_cur s' = Some t -> K t s') -> wq next K s.
Proof.
  intros A Q'. unfold next. apply wq_bind. eapply held_next; [exact A|]. intros s' A' _. destruct (s_cur s') as [t|] eqn:C; [apply wq_ret; auto|exact Logic.I].
Qed.
Lemma held_uses (b : bool) text h0 u Q fr E s : held text h0 u Q fr E s -> of_tree Q -> of_heap fr ->
  wq (if b then Bind (parse_uses_next R) (fun l => Ret (Some l)) else Ret None) (fun l s' =>
    held text h0 u Q fr (cat E (uses_f (s_heap s') l)) s' /\ listed (s_heap s') (or_nil l)) s.
Proof.
  intros (F & o & N & L & q & A) O K. eapply wq_weak; [apply (q_uses_if b _ _ _ A)|cbv beta]. intros l s' (A' & L' & F').
  split; [|exact L']. destruct (fr_units _ _ _ F' u ltac:(discriminate) o N) as (o' & N' & S).
  split; [eapply frame_trans; [exact F|now apply frame_more]|]. exists o'. split; [exact N'|].
  split; [eapply unit_listed_kept; [exact (frame_uses_of _ _ _ F')|exact S|exact L]|]. split; [eapply O; eauto|].
  rewrite (K _ _ _ _ (frame_uses_of _ _ _ F') S L). eapply stands_weak; [exact A'|].
  intros ws (a1 & a2 & -> & (b1 & b2 & -> & B1 & B2) & A2). rewrite <- app_assoc. apply cat_app; [exact B1|]. now apply cat_app.
Qed.

(** Named only; up to the uses clause of the interface section; up to the interface section;
    up to the uses clause of the implementation section; up to its declarations; up to its
    exports; all *)
Definition f2 path o := path_is path o /\ un_intf o <> None /\ un_impl o = None /\ un_init o = None.
Definition f3 path o := path_is path o /\ un_intf o <> None /\ (exists l, un_impl o = Some (mkImpl l None None)) /\ un_init o = None.
Definition f4 path o := path_is path o /\ un_intf o <> None /\ (exists l ds, un_impl o = Some (mkImpl l ds None)) /\ un_init o = None.
Definition f5 path o := path_is path o /\ un_intf o <> None /\ un_impl o <> None /\ un_init o = None.
Definition f6 path o := path_is path o /\ un_intf o <> None /\ un_impl o <> None.
Ltac by_tree := intros ? ? (E1 & E2 & _ & E3 & E4 & E5); unfold path_is; rewrite ?E1, ?E3, ?E4, ?E5; exact (fun x => x).
Lemma treef2 path : of_tree (f2 path). Proof. unfold f2. by_tree. Qed.
Lemma treef3 path : of_tree (f3 path). Proof. unfold f3. by_tree. Qed.
Lemma treef4 path : of_tree (f4 path). Proof. unfold f4. by_tree. Qed.
Lemma treef5 path : of_tree (f5 path). Proof. unfold f5. by_tree. Qed.
Lemma treef6 path : of_tree (f6 path). Proof. unfold f6. by_tree. Qed.

(** ** The methods *)

Lemma q_unit_ident uc text s : stands text s nothing -> wq (parse_unit_ident uc) (fun u s' => exists path,
  ctx_path (s_heap s) uc = Some path /\ nth_error (h_units (s_heap s)) u = None /\ held text (s_heap s) u (st0 path) front nothing s') s.
Proof.
  intros A. unfold parse_unit_ident. apply wq_bind, sw_expect. intros t0 C0 K0.
  apply wq_bind, (sw_expect_next text nothing); [exact A|]. clear A. intros t s1 A1 C1 I1 H1. rewrite C0 in A1. apply wq_bind, wq_heap. intros path h E.
  rewrite H1 in E. destruct (ctx_path (s_heap s) uc) as [p|] eqn:Ep; [|discriminate]. injection E as <- <-.
  apply wq_bind, wq_heap. intros u h. cbn [s_heap with_heap]. intros [= <- <-]. set (o := mkUnit p (new_ident t) None None None None DNil).
  cbn [s_ctx with_heap]. apply wq_bind.
  set (h2 := with_units (h_units (s_heap s) ++ [o]) (s_heap s)). set (u := length (h_units (s_heap s))).
  assert (A2 : stands text (with_heap h2 (with_heap (s_heap s) s1)) (cat (word "UNIT") nothing)).
  { split; [exact (proj1 A1)|]. destruct A1 as (_ & ws & S & W). exists ws. split; [exact S|]. words. }
  eapply (sw_nexttok text _ _ _ A2). intros t1 s3 A3 C3 H3. cbn [s_heap with_heap] in H3. cbn [s_cur with_heap] in A3. rewrite C1 in A3.
  pose proof (ident_val _ I1) as V.
  assert (Nu : nth_error (h_units (s_heap s)) u = None) by (apply nth_error_None; unfold u; lia).
  assert (Hd : forall port s', s_heap s' = put_unit h2 u (with_port port) -> stands text s' (cat (word "UNIT") (cat (name (new_ident t)) (cat (FormSpec.opt say port) (maybe (word ";"))))) ->
    held text (s_heap s) u (st0 p) front nothing s').
  { intros port s' H' A'.
    assert (N2 : nth_error (h_units h2) u = Some o) by (cbn; rewrite nth_error_app2, Nat.sub_diag by lia; reflexivity).
    split; [|exists (with_port port o)]; rewrite H'.
    - eapply frame_trans; [|apply frame_put]. constructor.
      + intros a x X. exists x. auto.
      + intros k Nk x X. exists x. split; [|apply tree_same_refl]. cbn. rewrite nth_error_app1; [exact X|]. apply nth_error_Some. congruence.
      + intros k Nk X. cbn. apply nth_error_None in X. apply nth_error_None. rewrite app_length. cbn [length].
        assert (k <> u) by congruence. unfold u in *. lia.
      + intros a x X. exists x. auto.
    - split; [now apply put_unit_hit|]. split; [split; intros ?; discriminate|].
      split; [repeat split|]. eapply stands_weak; [exact A'|]. intros ws W. unfold front. cbn [un_ident un_port un_intf un_impl with_port o FormSpec.opt]. words. }
  clear C1. fold u. apply wq_bind.
  assert (Same : h2 = put_unit h2 u (with_port None)).
  { unfold put_unit. assert (N2 : nth_error (h_units h2) u = Some o) by (cbn; rewrite nth_error_app2, Nat.sub_diag by lia; reflexivity). rewrite N2.
    change (with_port None o) with o. unfold h2, with_units. cbn. f_equal. symmetry. apply set_nth_same. exact N2. }
  assert (Z : forall port t2 s4, s_heap s4 = put_unit h2 u (with_port port) -> s_cur s4 = Some t2 ->
    stands text s4 (cat (word "UNIT") (cat (name (new_ident t)) (FormSpec.opt say port))) ->
    wq (Bind (if sym ";" t2 then Bind Next (fun _ => Ret tt) else Ret tt) (fun _ => Ret u)) (fun u s' => exists path, Some p = Some path /\
      nth_error (h_units (s_heap s)) u = None /\ held text (s_heap s) u (st0 path) front nothing s') s4).
  { intros port t2 s4 H4 C4 A4. apply wq_bind. destruct (sym ";" t2) eqn:S2.
    - apply wq_bind, (sw_next text _ _ _ A4). intros s5 A5 H5. apply wq_ret, wq_ret. exists p. split; [reflexivity|]. split; [exact Nu|].
      apply (Hd port); [congruence|]. rewrite C4 in A5. eapply stands_weak; [exact A5|]. intros ws W. words.
    - apply wq_ret, wq_ret. exists p. split; [reflexivity|]. split; [exact Nu|]. apply (Hd port); [exact H4|].
      eapply stands_weak; [exact A4|]. intros ws W. words. }
  destruct (p_portability t1).
  - apply wq_bind, wq_heap. intros x h [= _ <-]. rewrite H3.
    assert (A4 : stands text (with_heap (put_unit h2 u (with_port (Some (value t1)))) s3) (cat (cat (word "UNIT") nothing) (eq (left_behind (Some t))))) by exact A3.
    eapply (sw_nexttok text _ _ _ A4). intros t2 s4 A5 C5 H5. cbn [s_cur with_heap] in A5. rewrite C3 in A5. apply (Z (Some (value t1)) t2 s4 H5 C5).
    eapply stands_weak; [exact A5|]. intros ws W. words.
  - apply wq_ret. apply (Z None t1 s3); [congruence|exact C3|]. eapply stands_weak; [exact A3|]. intros ws W. words.
Qed.
Lemma q_unit_intf_uses text h0 u path s : held text h0 u (st0 path) front nothing s ->
  wq (parse_unit_intf_uses R u) (fun _ s' => held text h0 u (st1 path) front nothing s') s.
Proof.
  intros H. unfold parse_unit_intf_uses. apply wq_bind, sw_expect. intros t0 C0 K0. apply wq_bind.
  eapply held_nexttok; [exact H|]. rewrite C0. clear s H C0. intros t s H C. apply wq_bind.
  eapply wq_weak; [apply (held_uses _ _ _ _ _ _ _ _ H (tree0 _) heap_front)|cbv beta].
  clear s H C. intros l s [H L]. apply wq_heap. intros x h [= _ <-]. eapply held_put; [exact H|exact heap_front|].
  intros o [Lo _] (q1 & q2 & q3 & q4). split; [|split].
  - intros ws W. unfold front, intf_f in *. cbn [un_ident un_port un_intf un_impl with_intf FormSpec.opt is_uses is_decls]. rewrite q2, q3 in *. cbn [FormSpec.opt] in *. words.
  - split; intros i; cbn; [intros [= <-]; exact L|rewrite q3; discriminate].
  - split; [exact q1|]. split; [cbn; eauto|now cbn].
Qed.
Lemma q_ident_and_intf_uses uc text s : stands text s nothing -> wq (parse_ident_and_intf_uses R uc) (fun u s' => exists path,
  ctx_path (s_heap s) uc = Some path /\ nth_error (h_units (s_heap s)) u = None /\ held text (s_heap s) u (st1 path) front nothing s') s.
Proof.
  intros A. unfold parse_ident_and_intf_uses. apply wq_bind. eapply wq_weak; [apply (q_unit_ident uc _ _ A)|cbv beta].
  intros u s1 (path & E & N & H). apply wq_bind. eapply wq_weak; [apply (q_unit_intf_uses _ _ _ _ _ H)|cbv beta]. intros _ s2 H2. apply wq_ret. eauto.
Qed.
Lemma opt_row {A} (f : A -> form) l : FormSpec.opt (fun l => row (map f l)) (nonempty l) = row (map f l).
Proof. now destruct l. Qed.
Lemma q_intf_body text h0 u path s : held text h0 u (st1 path) front nothing s ->
  wq (parse_unit_intf_body R u) (fun _ s' => held text h0 u (f2 path) front nothing s') s.
Proof.
  intros H. unfold parse_unit_intf_body. apply wq_bind.
  eapply wq_weak; [apply (held_takes _ _ _ _ _ _ _ _ _ _ _ (f_intf_decls R RF _) (i_intf_decls R RS _) H (tree1 _) heap_front)|cbv beta].
  clear s H. intros l s H. apply wq_heap. intros x h E.
  set (h1 := put_unit (s_heap s) u _) in E.
  assert (H1 : held text h0 u (f2 path) front nothing (with_heap h1 s)).
  { eapply held_put; [exact H|exact heap_front|]. intros o [Lo _] (q1 & (us & q2) & q3 & q4). split; [|split].
    - intros ws W. unfold front, intf_f in *. cbn [un_ident un_port un_intf un_impl with_intf]. rewrite q2, q3 in *.
      cbn [FormSpec.opt option_map is_uses is_decls] in *. rewrite opt_row. words.
    - split; intros i; cbn; [rewrite q2; intros [= <-]; apply (Lo _ q2)|rewrite q3; discriminate].
    - split; [exact q1|]. split; [cbn; rewrite q2; discriminate|now cbn]. }
  pose proof (frame_new_map None h1) as F2. destruct (new_map h1) as [h2 a]. cbn [fst] in F2.
  destruct (set_all h2 _ _) as [h3|] eqn:S; [|discriminate]. injection E as _ <-. apply (frame_set_all None) in S.
  eapply (held_heap _ _ _ _ _ _ (with_heap h1 s)); [exact H1| |apply treef2|exact heap_front]. eapply frame_trans; [exact F2|]. eapply frame_trans; [exact S|].
  apply frame_put_same. now intros.
Qed.
Lemma q_process_intf_body uc text h0 u path s : held text h0 u (st1 path) front nothing s ->
  wq (process_intf_body R uc u) (fun _ s' => held text h0 u (f2 path) front nothing s') s.
Proof.
  intros H. unfold process_intf_body. apply wq_bind, wq_heap. intros x h.
  destruct (unit_intf_uses _ _) as [us|]; [|discriminate]. destruct (nth_error _ u) as [o|]; [|discriminate].
  destruct (import_unit_decls _ _ _) as [h1|] eqn:E; [|discriminate]. apply (frame_import None) in E.
  pose proof (ctx_set_objs h1 uc [mkDecl (un_ident o) (NUnit u)]) as X. destruct (ctx_set _ _ _) as [h2|h2 i|]; try discriminate.
  destruct X as (X1 & X2 & X3). intros [= _ <-]. apply q_intf_body. eapply held_heap; [exact H| |apply tree1|exact heap_front].
  eapply frame_trans; [exact E|]. now apply frame_same.
Qed.
Lemma q_impl_uses uc text h0 u path s : held text h0 u (f2 path) front nothing s ->
  wq (parse_impl_uses R uc u) (fun _ s' => held text h0 u (f3 path) front nothing s') s.
Proof.
  intros H. unfold parse_impl_uses. apply wq_bind, sw_expect. intros t0 C0 K0. apply wq_bind.
  eapply held_next; [exact H|]. rewrite C0. intros s1 H1 _. clear s H C0. rename s1 into s, H1 into H.
  apply wq_bind, wq_heap. intros x h. destruct (ctx_stack _ _) as [[h1 m]|] eqn:E; [|discriminate]. intros [= _ <-].
  apply (frame_stack None) in E. apply wq_bind, sw_is. intros t1 _. apply wq_bind.
  eapply wq_weak; [apply (held_uses (kw "USES" t1) text h0 u (f2 path) front); [|apply treef2|exact heap_front]; eapply held_heap; [exact H|exact E|apply treef2|exact heap_front]|cbv beta].
  clear s H E. intros l s [H L]. apply wq_bind, wq_heap. intros y h' [= _ <-]. apply wq_ret.
  eapply held_put; [exact H|exact heap_front|]. intros o [Lo _] (q1 & q2 & q3 & q4). split; [|split].
  - intros ws W. unfold front, impl_open in *. cbn [un_ident un_port un_intf un_impl with_impl]. rewrite q3 in *.
    cbn [FormSpec.opt im_uses im_decls im_exports] in *. words.
  - split; intros i; cbn; [apply Lo|intros [= <-]; exact L].
  - split; [exact q1|]. split; [exact q2|]. split; [cbn; eauto|now cbn].
Qed.
Lemma q_impl_scope uc text h0 u path us s : held text h0 u (f3 path) front nothing s ->
  wq (impl_scope uc u us) (fun _ s' => held text h0 u (f3 path) front nothing s') s.
Proof.
  intros H. unfold impl_scope. apply wq_heap. intros x h. destruct (assign_units _ _ _) as [h1|] eqn:E; [|discriminate].
  apply (frame_assign_units None) in E. destruct (nth_error (h_ctxs h1) uc) as [co|]; [|discriminate]. destruct (nth_error (h_units h1) u) as [uo|]; [|discriminate].
  pose proof (frame_new_map None h1) as F. destruct (new_map h1) as [h2 a]. cbn [fst] in F. intros [= _ <-].
  eapply held_heap; [exact H| |apply treef3|exact heap_front]. eapply frame_trans; [exact E|]. eapply frame_trans; [exact F|].
  eapply frame_trans; [|apply frame_put_map]. apply frame_put_same. now intros.
Qed.
Lemma q_impl_body text h0 u path s : held text h0 u (f3 path) front nothing s ->
  wq (parse_impl_body R u) (fun _ s' => held text h0 u (f5 path) unit_front nothing s') s.
Proof.
  intros H. unfold parse_impl_body. apply wq_bind.
  eapply wq_weak; [apply (held_takes _ _ _ _ _ _ _ _ _ _ _ (f_parse_decl_sections R RF) (i_parse_decl_sections R RS) H (treef3 _) heap_front)|cbv beta]. clear s H. intros ds s H.
  apply wq_bind, wq_heap. intros x h [= _ <-].
  assert (H1 : held text h0 u (f4 path) front nothing (with_heap (put_unit (s_heap s) u (fun o => with_impl (option_map (fun s => mkImpl (im_uses s) ds (im_exports s)) (un_impl o)) o)) s)).
  { eapply held_put; [exact H|exact heap_front|]. intros o [Lo Li] (q1 & q2 & (l & q3) & q4). split; [|split].
    - intros ws W. unfold front, impl_open in *. cbn [un_ident un_port un_intf un_impl with_impl]. rewrite q3 in *.
      cbn [FormSpec.opt option_map im_uses im_decls im_exports] in *. words.
    - split; intros i; cbn; [apply Lo|rewrite q3; intros [= <-]; apply (Li _ q3)].
    - split; [exact q1|]. split; [exact q2|]. split; [cbn; rewrite q3; cbn; eauto|exact q4]. }
  clear H. apply wq_bind.
  eapply wq_weak; [apply (held_takes _ _ _ _ _ _ _ _ _ _ _ (f_parse_exports_stmts R RF) (i_parse_exports_stmts R RS) H1 (treef4 _) heap_front)|cbv beta]. clear s H1. intros ex s H.
  apply wq_bind, wq_heap. intros y h [= _ <-].
  assert (H1 : held text h0 u (f5 path) front nothing (with_heap (put_unit (s_heap s) u (fun o => with_impl (option_map (fun s => mkImpl (im_uses s) (im_decls s) ex) (un_impl o)) o)) s)).
  { eapply held_put; [exact H|exact heap_front|]. intros o [Lo Li] (q1 & q2 & (l & d & q3) & q4). split; [|split].
    - intros ws W. unfold front, impl_open in *. cbn [un_ident un_port un_intf un_impl with_impl]. rewrite q3 in *.
      cbn [FormSpec.opt option_map im_uses im_decls im_exports] in *. words.
    - split; intros i; cbn; [apply Lo|rewrite q3; intros [= <-]; apply (Li _ q3)].
    - split; [exact q1|]. split; [exact q2|]. split; [cbn; rewrite q3; discriminate|exact q4]. }
  clear H. apply wq_bind, sw_is. intros t C. destruct (sym ";" t) eqn:Sy.
  - apply wq_bind. eapply held_next; [exact H1|]. rewrite C. intros s' H' _. apply wq_ret. eapply held_weak; [|exact H'].
    intros o (q1 & q2 & q3 & q4). split; [repeat split; assumption|]. intros ws W. unfold front, unit_front, impl_open, impl_f in *. rewrite q4.
    destruct (un_impl o) as [i|]; [|congruence]. cbn [FormSpec.opt] in *. words.
  - apply wq_ret. eapply held_weak; [|exact H1].
    intros o (q1 & q2 & q3 & q4). split; [repeat split; assumption|]. intros ws W. unfold front, unit_front, impl_open, impl_f in *. rewrite q4.
    destruct (un_impl o) as [i|]; [|congruence]. cbn [FormSpec.opt] in *. words.
Qed.
Definition full_stop (c : option token) : Prop := exists t, c = Some t /\ value t = rs ".".
Lemma q_unit_end text h0 u path s : held text h0 u (f5 path) unit_front nothing s ->
  wq (parse_unit_end R u) (fun _ s' => held text h0 u (f6 path) whole nothing s' /\ full_stop (s_cur s')) s.
Proof.
  intros H. unfold parse_unit_end. apply wq_bind, sw_is. intros tb _. apply wq_bind.
  assert (W : wq (if kw "INITIALIZATION" tb then Bind (parse_init_section R) (fun i => change_unit u (with_init (Some i))) else Ret tt)
    (fun _ s' => held text h0 u (f6 path) unit_front nothing s') s).
  { destruct (kw _ tb); [|apply wq_ret; eapply held_weak; [|exact H]; intros o (q1 & q2 & q3 & q4); repeat split; auto].
    apply wq_bind. eapply wq_weak; [apply (held_takes _ _ _ _ _ _ _ _ _ _ _ (f_parse_init_section R RF) (i_init_section R RS) H (treef5 _) heap_unit_front)|cbv beta]. intros i s1 H1.
    apply wq_heap. intros x h [= _ <-]. eapply held_put; [exact H1|exact heap_unit_front|]. intros o [Lo Li] (q1 & q2 & q3 & q4). split; [|split].
    - intros ws W. unfold unit_front in *. cbn [un_ident un_port un_intf un_impl un_init with_init]. rewrite q4 in *. cbn [FormSpec.opt] in *. words.
    - split; intros j; cbn; [apply Lo|apply Li].
    - repeat split; assumption. }
  eapply wq_weak; [exact W|cbv beta]. clear s H W. intros _ s H. apply wq_bind, sw_expect. intros t C K. apply wq_bind.
  unfold expect_next. apply wq_bind. eapply held_next; [exact H|]. rewrite C. intros s' H' _. unfold wq at 1.
  destruct (s_cur s') as [t'|] eqn:C'; cbn [validate]; [|exact Logic.I]. destruct (sym "." t') eqn:E; cbn [run]; [|now destruct (ctx_path _ _)].
  apply wq_ret. split; [|exists t'; split; [exact C'|now apply sym_val]].
  eapply held_weak; [|exact H']. intros o q. split; [exact q|]. intros ws W. unfold whole. words.
Qed.
Lemma q_unit uc text s : stands text s nothing -> wq (parse_unit R uc) (fun u s' => exists path,
  ctx_path (s_heap s) uc = Some path /\ held text (s_heap s) u (f6 path) whole nothing s' /\ full_stop (s_cur s')) s.
Proof.
  intros A. unfold parse_unit. apply wq_bind. eapply wq_weak; [apply (q_ident_and_intf_uses uc _ _ A)|cbv beta].
  intros u s1 (path & E & N & H). apply wq_bind. eapply wq_weak; [apply (q_intf_body _ _ _ _ _ H)|cbv beta].
  clear s1 H. intros _ s1 H. apply wq_bind. eapply wq_weak; [apply (q_impl_uses uc _ _ _ _ _ H)|cbv beta].
  clear s1 H. intros _ s1 H. apply wq_bind. eapply wq_weak; [apply (q_impl_body _ _ _ _ _ H)|cbv beta].
  clear s1 H. intros _ s1 H. apply wq_bind. eapply wq_weak; [apply (q_unit_end _ _ _ _ _ H)|cbv beta].
  clear s1 H. intros _ s1 H. apply wq_ret. eauto.
Qed.
End Level.
End WithUnicode.
