(** Programs end: the units one by one. *)
From Coq Require Import String List NArith Bool Arith Lia Permutation.
From Verif Require Import ListUtil Runes UnicodeFacts Token Tokenizer CursorFacts TokenizerFacts LexSpec LexShape LexFacts LexMain
  Ast Ext Heap Classes MapSpec MapFacts Prog Parser ParseSpec RunFacts WpFacts ExprSpec ExprSound TermSpec TermHeap TermFacts TermExpr
  TermTypes TermClass TermStmt FuelFacts TermMain Units UnitSpec ExtSpec ExtMain SortMain UsesMain TermUnitSpec TermUnit TermHead TermBody.
Import ListNotations.
Local Open Scope list_scope.

Section WithUnicode.
Context {U : Unicode} {UOK : UnicodeOk U}.
Variable lax : bool.
Variable D n : nat.
Local Notation R := (recs_at n).

(** ** Units that have no declarations yet *)
Lemma sound_conv (un1 un2 : Unmapped) h : (forall k v, un1 k v -> un2 k v \/ unit_there h v) ->
  sound_but un1 h -> sound_but un2 h.
Proof.
  intros X [A B]. split; [exact A|]. eapply Forall_impl; [|exact B]. intros m F. eapply Forall_impl; [|exact F].
  intros e (d & E & o & Eo & L & N). exists d. split; [exact E|]. exists o. split; [exact Eo|]. split; [exact L|].
  destruct (d_node o); cbn in *; auto. destruct N as [?|N]; [now left|]. destruct (X _ _ N); auto.
Qed.
Lemma okw_conv (un1 un2 : Unmapped) text path s : (forall k v, un1 k v -> un2 k v \/ unit_there (s_heap s) v) ->
  okw (unmapped := un1) text path lax D s -> okw (unmapped := un2) text path lax D s.
Proof.
  intros X [[(P & AB & SO & CP & SH) N] F]. split; [|exact F]. split; [|exact N]. split; [exact P|]. split; [exact AB|].
  split; [exact (sound_conv un1 un2 _ X SO)|]. split; [exact CP|exact SH].
Qed.

(** Enough fuel for [text], unless we do not care *)
Definition room (text : list rune) : Prop :=
  lax = true \/ (2 * length text + D + 4 <= n /\ ~ asm_without_end text /\ ~ has_type_section text).
Section Room.
Context {unmapped : Unmapped}.
Variable text : list rune.
Variable path : gostring.
Hypothesis RO : room text.
Lemma room_rgood : rgood text path lax D R (2 * length text + 3).
Proof. apply rgood_at. destruct RO as [?|[? _]]; [now left|right; lia]. Qed.
Lemma room_mu s : lax = true \/ mu text s < 2 * length text + 3.
Proof. right. pose proof (mu_bound text s). lia. Qed.
Lemma room_fuel s : lax = true \/ mu text s < n.
Proof. destruct RO as [?|[? _]]; [now left|right]. pose proof (mu_bound text s). lia. Qed.
Lemma room_asm : no_stray_asm text lax.
Proof. destruct RO as [?|(_ & ? & _)]; [now left|now right]. Qed.
Lemma room_types : no_types text lax.
Proof. destruct RO as [?|(_ & _ & ?)]; [now left|now right]. Qed.
End Room.

(** ** The interface of a unit of a program *)
Definition self_named (name : gostring) (u : nat) : Unmapped := fun k v => k = to_lower name /\ v = u.
Definition own_name (text : list rune) (name : gostring) : Prop := qualifies text (fun k => k = to_lower name).
Lemma intf_body_ends text path uc u name s p units : room text ->
  okw (unmapped := nobody) text path lax D s -> ctx_path (s_heap s) uc = Some p ->
  parent_units (s_heap s) uc = Some units ->
  (forall us a v, unit_intf_uses (s_heap s) u = Some us -> In a us ->
     find_name (unit_name (s_heap s)) units (uses_name (s_heap s) a) = Some v -> unit_there (s_heap s) v) ->
  unit_headed (s_heap s) u name -> interfaced (s_heap s) u ->
  match run (process_intf_body R uc u) s with
  | OOk _ s' => okw (unmapped := nobody) text path lax D s' /\ wider (s_heap s) (s_heap s') /\ unit_there (s_heap s') u
  | OErr e _ => error_at text path e
  | OPanic => unknown_rune text \/ own_name text name
  | OHang => open_string text
  | OStuck => lax = true
  end.
Proof.
  intros RO O CP PU TU (o & Eo & Lo & No) (o2 & sec & src & Eo2 & Is & It & Dn).
  assert (o2 = o) by congruence. subst o2. set (un := self_named name u).
  assert (O1 : okw (unmapped := un) text path lax D s) by (apply (okw_conv nobody un); [intros k v []|exact O]).
  assert (X : does (unmapped := un) text path lax D (process_intf_body R uc u) s (fun _ s' => unit_there (s_heap s') u)).
  { unfold process_intf_body.
    apply (does_join _ _ _ _ _ _ _ (fun _ s' => wider (s_heap s) (s_heap s'))).
    - apply does_onheap; [exact O1|]. assert (EU : unit_intf_uses (s_heap s) u = Some (or_nil (is_uses sec))).
      { unfold unit_intf_uses. now rewrite Eo, Is. }
      rewrite EU, Eo. destruct (import_wstep (unmapped := un) lax D (s_heap s) uc (or_nil (is_uses sec)) units p) as (h1 & -> & W1).
      + now apply okw_sound in O1.
      + apply O1.
      + exact CP.
      + exact PU.
      + intros a v I. now apply (TU _ a v EU).
      + pose proof (ctx_set_good (unmapped := un) lax h1 uc p [mkDecl (un_ident o) (NUnit u)] (proj1 W1)) as X.
        assert (CP1 : ctx_path h1 uc = Some p).
        { apply (ctx_path_wider (unmapped := un) (s_heap s)); [now apply okw_sound in O1|apply W1|exact CP]. }
        assert (FA : Forall (fun d => i_loc (d_ident d) <> None /\ node_there un h1 (to_lower (i_name (d_ident d))) (d_node d) /\
                    (lax = true \/ no_type d)) [mkDecl (un_ident o) (NUnit u)]).
        { constructor; [|constructor]. split; [exact Lo|]. split; [|right; discriminate]. right. split; [|reflexivity].
          cbn. now rewrite No. }
        specialize (X CP1 FA).
        destruct (ctx_set h1 uc _) as [h2|h2 i|]; [|exact I|destruct X].
        assert (W2 : wstep (unmapped := un) lax D (s_heap s) h2).
        { eapply wstep_trans; [exact W1|]. apply wstep_good; [apply W1|exact X]. }
        split; [exact W2|]. apply W2.
    - intros _ s1 O2 W1 _ _.
      eapply does_conseq; [eapply does_intf_body; [apply room_rgood; exact RO|apply room_mu|exact (room_asm text RO)|exact (room_types text RO)|exact O2|]|auto].
      destruct (w_units _ _ W1 _ _ Eo) as (o' & E' & _). eauto. }
  unfold does in X. destruct (run _ s) as [a s'|e s'| | |]; auto.
  - destruct X as (O' & W & _ & T). split; [|split; [exact W|exact T]]. apply (okw_conv un nobody); [|exact O'].
    intros k v [_ ->]. now right.
  - destruct X as [X|(t & t1 & A & B & C & v & [X _])]; [now left|]. right. exists t, t1. auto.
Qed.

(** From here on every unit declared has its declarations. *)
#[local] Existing Instance nobody.
Local Notation okw text path := (TermUnit.okw text path lax D).
Local Notation does text path := (TermUnit.does text path lax D).
Local Notation wstep := (TermUnit.wstep lax D).
Definition hok (h : heap) : Prop := sound_but nobody h /\ uses_fine h /\ (lax = true \/ (1 <= D /\ shallow D h)).
Definition reading (text : list rune) (s : pst) : Prop :=
  parsing text s /\ (forall t, s_cur s = Some t -> abreast text s t) /\ (s_cur s = None -> unknown_rune text).
Lemma okw_iff text path s : okw text path s <-> reading text s /\ hok (s_heap s) /\ ctx_path (s_heap s) (s_ctx s) = Some path.
Proof. unfold TermUnit.okw, ok, pre, reading, hok. tauto. Qed.
Lemma hok_step h h' : hok h -> wstep h h' -> hok h'.
Proof.
  intros (_ & _ & S) (S' & F' & _ & K). split; [exact S'|]. split; [exact F'|].
  destruct S as [?|[L S]]; [now left|]. destruct K as [?|K]; [now left|]. right. auto.
Qed.
Lemma hok_fine h : hok h -> sound_but nobody h /\ uses_fine h.
Proof. intros (S & F & _). auto. Qed.

(** ** The start of a text *)
Lemma text_starts text path c h : hok h -> ctx_path h c = Some path ->
  match run Next (mkPst (new_tokenizer text false false) None c [] h) with
  | OOk _ s => okw text path s /\ s_heap s = h /\ s_ctx s = c /\ forall ws, stands text s ws -> begins text ws
  | OHang => open_string text
  | _ => False
  end.
Proof.
  intros (SO & F & SH) CP. set (s0 := mkPst _ _ _ _ _).
  assert (P : pre text path lax D s0).
  { split; [split; [split; [constructor|auto]|discriminate]|]. split; [discriminate|]. auto. }
  pose proof (next_pre text path lax D s0 P) as N. cbn [run]. unfold next_token in *.
  change (s_tok s0) with (new_tokenizer text false false) in *.
  destruct (get_next (new_tokenizer text false false)) as [t k'|k'|] eqn:G; try contradiction; auto.
  - destruct N as (O & C & Hh & Hc & _). split; [split; [exact O|exact F]|]. split; [exact Hh|]. split; [exact Hc|].
    intros ws (t' & ws' & -> & [= <-] & _ & ts & k2 & Rd & <-). exists (t :: ts), k2. split; [econstructor; eauto|reflexivity].
  - destruct N as (O & C & Hh & Hc & _). split; [split; [exact O|exact F]|]. split; [exact Hh|]. split; [exact Hc|].
    intros ws (t' & ws' & -> & [=] & _).
Qed.
(** A method run from there *)
Lemma text_does {A} text path (p : prog A) c h (Q : A -> pst -> Prop) : hok h -> ctx_path h c = Some path ->
  (forall s, okw text path s -> s_heap s = h -> s_ctx s = c -> (forall ws, stands text s ws -> begins text ws) ->
     does text path p s Q) ->
  match run (Bind Next (fun _ => p)) (mkPst (new_tokenizer text false false) None c [] h) with
  | OOk a s' => okw text path s' /\ wider h (s_heap s') /\ Q a s'
  | OErr e _ => error_at text path e
  | OPanic => unknown_rune text
  | OHang => open_string text
  | OStuck => lax = true
  end.
Proof.
  intros K CP H. pose proof (text_starts text path c h K CP) as X. cbn [run] in *.
  destruct (next_token _) as [x s1| | | |]; try contradiction; [|exact X]. destruct X as (O & Hh & Hc & B).
  specialize (H s1 O Hh Hc B). unfold TermUnit.does in H. destruct (run p s1) as [a s'|e s'| | |]; auto.
  - rewrite Hh in H. destruct H as (O' & W & _ & Q'). auto.
  - now apply crashes_rune.
Qed.

(** ** What loading keeps *)
Record spread (h h' : heap) : Prop := mkSpread {
  sp_maps : length (h_maps h) <= length (h_maps h');
  sp_uses : forall a o, nth_error (h_uses h) a = Some o ->
    exists o', nth_error (h_uses h') a = Some o' /\ u_ident o' = u_ident o /\ u_path o' = u_path o;
  sp_units : forall u o, nth_error (h_units h) u = Some o ->
    exists o', nth_error (h_units h') u = Some o' /\ un_ident o' = un_ident o /\
      forall s, un_intf o = Some s -> exists s', un_intf o' = Some s' /\ is_uses s' = is_uses s;
  sp_progs : forall a o, nth_error (h_progs h) a = Some o ->
    exists o', nth_error (h_progs h') a = Some o' /\ pr_ident o' = pr_ident o;
  sp_ctxs : forall c o, nth_error (h_ctxs h) c = Some o ->
    exists o', nth_error (h_ctxs h') c = Some o' /\ cx_path o' = cx_path o /\
      forall p, cx_kind o = KUnit p -> cx_kind o' = KUnit p }.
Lemma spread_refl h : spread h h.
Proof. constructor; eauto 8. Qed.
Lemma spread_trans h1 h2 h3 : spread h1 h2 -> spread h2 h3 -> spread h1 h3.
Proof.
  intros [M1 U1 V1 P1 C1] [M2 U2 V2 P2 C2]. constructor.
  - lia.
  - intros a o E. destruct (U1 _ _ E) as (o1 & E1 & A & B). destruct (U2 _ _ E1) as (o2 & E2 & A2 & B2).
    exists o2. repeat split; congruence.
  - intros u o E. destruct (V1 _ _ E) as (o1 & E1 & A & B). destruct (V2 _ _ E1) as (o2 & E2 & A2 & B2).
    exists o2. split; [exact E2|]. split; [congruence|]. intros s Es. destruct (B s Es) as (s1 & X1 & Y1).
    destruct (B2 s1 X1) as (s2 & X2 & Y2). exists s2. split; [exact X2|congruence].
  - intros a o E. destruct (P1 _ _ E) as (o1 & E1 & A). destruct (P2 _ _ E1) as (o2 & E2 & A2).
    exists o2. split; congruence.
  - intros c o E. destruct (C1 _ _ E) as (o1 & E1 & A & B). destruct (C2 _ _ E1) as (o2 & E2 & A2 & B2).
    exists o2. split; [exact E2|]. split; [congruence|]. auto.
Qed.
Lemma spread_wider h h' : wider h h' -> spread h h'.
Proof.
  intros W. constructor; try apply W.
  - intros a o E. destruct (w_progs _ _ W _ _ E) as (o' & E' & I & _). eauto.
  - intros c o E. destruct (chead_wider _ _ _ _ W E) as (o' & E' & C). unfold chead in C. exists o'.
    split; [exact E'|]. split; [congruence|]. intros p K. congruence.
Qed.
Lemma ctx_path_spread h h' c p : hok h -> spread h h' -> ctx_path h c = Some p -> ctx_path h' c = Some p.
Proof.
  intros K W E. destruct (ctx_path_inv _ _ _ (proj1 K) E) as (o & No & Q & _).
  destruct (sp_ctxs _ _ W _ _ No) as (o' & N' & C & _). eapply ctx_path_of; eauto. congruence.
Qed.
Lemma items_spread h h' us l : spread h h' -> items h us l -> items h' us l.
Proof.
  intros W F. induction F as [|a i us l (o & E & A & B & C) F IH]; constructor; [|exact IH].
  destruct (sp_uses _ _ W _ _ E) as (o' & E' & I1 & I2). exists o'. rewrite I1, I2. auto.
Qed.
Lemma headed_spread h h' u name : spread h h' -> unit_headed h u name -> unit_headed h' u name.
Proof. intros W (o & E & L & N). destruct (sp_units _ _ W _ _ E) as (o' & E' & I1 & _). exists o'. rewrite I1. auto. Qed.
Lemma interfaced_spread h h' u : spread h h' -> interfaced h u -> interfaced h' u.
Proof.
  intros W (o & sec & src & E & I1 & It & Dn). destruct (sp_units _ _ W _ _ E) as (o' & E' & _ & X).
  destruct (X sec I1) as (sec' & I2 & J). exists o', sec', src. rewrite J. repeat split; auto. eapply items_spread; eauto.
Qed.

(** ** A unit parser at work on a text *)
Record loaded (h : heap) (pc : nat) (p : uparser) (text : list rune) (path name : gostring) : Prop := mkLoaded {
  l_read : reading text (up_pst p h);
  l_path : ctx_path h (up_ctx p) = Some path;
  l_ctx : exists o, nth_error (h_ctxs h) (up_uc p) = Some o /\ cx_kind o = KUnit pc /\ cx_path o = Some path;
  l_name : unit_headed h (up_unit p) name;
  l_intf : interfaced h (up_unit p) }.
Lemma loaded_spread h h' pc p text path name : hok h -> spread h h' -> loaded h pc p text path name -> loaded h' pc p text path name.
Proof.
  intros K W [A B (o & E & Ko & Po) N I]. constructor.
  - exact A.
  - now apply (ctx_path_spread h).
  - destruct (sp_ctxs _ _ W _ _ E) as (o' & E' & C & X). exists o'. split; [exact E'|]. split; [auto|congruence].
  - now apply (headed_spread h).
  - now apply (interfaced_spread h).
Qed.
Definition prog_ctx (h : heap) (pc : nat) (units : list nat) : Prop :=
  exists o, nth_error (h_ctxs h) pc = Some o /\ cx_kind o = KProgram units.
Lemma prog_ctx_wider h h' pc units : wider h h' -> prog_ctx h pc units -> prog_ctx h' pc units.
Proof.
  intros W (o & E & K). destruct (chead_wider _ _ _ _ W E) as (o' & E' & C). exists o'. split; [exact E'|].
  unfold chead in C. congruence.
Qed.
Lemma loaded_units h pc p text path name units : prog_ctx h pc units -> loaded h pc p text path name ->
  parent_units h (up_uc p) = Some units.
Proof.
  intros (o & E & K) L. destruct (l_ctx _ _ _ _ _ _ L) as (c & Ec & Kc & _). unfold parent_units. rewrite Ec.
  destruct c as [kc pth mp]. cbn in Kc. subst kc. rewrite E. destruct o as [ko po mo]. cbn in K. now subst ko.
Qed.
Lemma loaded_ok h pc p text path name : hok h -> loaded h pc p text path name -> okw text path (up_pst p h).
Proof. intros K [A B _ _ _]. apply okw_iff. auto. Qed.
Lemma loaded_path h pc p text path name : loaded h pc p text path name -> ctx_path h (up_uc p) = Some path.
Proof. intros L. destruct (l_ctx _ _ _ _ _ _ L) as (c & Ec & _ & Pc). eapply ctx_path_of; eauto. Qed.

Lemma add_unit_keeps h pc us u : hok h -> prog_ctx h pc us ->
  hok (add_unit h pc u) /\ prog_ctx (add_unit h pc u) pc (us ++ [u]) /\ spread h (add_unit h pc u) /\
  (forall c o, nth_error (h_ctxs h) c = Some o -> c <> pc -> nth_error (h_ctxs (add_unit h pc u)) c = Some o).
Proof.
  intros (S & F & SH) (o & E & K). unfold add_unit. rewrite E. destruct o as [ko po mo]. cbn in K. subst ko.
  set (o' := mkCtx (KProgram (us ++ [u])) po mo). set (h' := with_ctxs (set_nth pc o' (h_ctxs h)) h).
  assert (W : forall c x, nth_error (h_ctxs h) c = Some x -> exists x', nth_error (set_nth pc o' (h_ctxs h)) c = Some x' /\
            (x' = x \/ (c = pc /\ x' = o' /\ x = mkCtx (KProgram us) po mo))).
  { intros c x Ec. destruct (Nat.eq_dec pc c) as [<-|N].
    - exists o'. split; [eapply nth_set_same; eauto|]. right. repeat split. congruence.
    - exists x. rewrite nth_set_other by exact N. auto. }
  split; [|split; [|split]].
  - split; [|split].
    + destruct S as [A B]. split.
      * cbn. apply set_nth_forall.
        -- rewrite Forall_forall in A. pose proof (A _ (nth_error_In _ _ E)) as [_ X]. cbn. split; [discriminate|].
           apply (usable_maps h); [apply le_n|exact X].
        -- eapply Forall_impl; [|exact A]. intros x [X1 X2]. split; [exact X1|]. apply (usable_maps h); [apply le_n|exact X2].
      * cbn. eapply Forall_impl; [|exact B]. intros m Fm. eapply Forall_impl; [|exact Fm].
        intros e (d & Ed & od & Eod & Ld & Nd). exists d. split; [exact Ed|]. exists od. split; [destruct d; exact Eod|].
        split; [exact Ld|]. destruct (d_node od); cbn in *; auto.
        -- destruct Nd as (x & Ex & Px). exists x. split; [exact Ex|]. intros v Ev. now apply (there_same h), Px.
        -- destruct Nd as [Nd|[]]. left. now apply (there_same h).
        -- destruct Nd as (x & Ex & Px). exists x. split; [exact Ex|]. now apply (usable_same h).
    + apply (uses_fine_same h); auto. intros v. now apply there_same.
    + destruct SH as [?|[L SH]]; [now left|right]. split; [exact L|]. now apply (shallow_keep _ h).
  - exists o'. split; [eapply nth_set_same; eauto|reflexivity].
  - constructor; cbn; eauto 8. intros c x Ec. destruct (W c x Ec) as (x' & E' & [->|(-> & -> & ->)]); eexists;
      (split; [exact E'|]); split; auto; discriminate.
  - intros c x Ec N. cbn. rewrite nth_set_other by congruence. exact Ec.
Qed.

Section Loading.
Context (files : gostring -> option (list rune)) (sep : rune)
  (order : string_set -> list gostring)
  (topo : list gostring -> list (gostring * gostring) -> option (list gostring)).
Variable pc : nat.

(** ** Loading *)
(** A new unit context *)
Definition fresh_uc (h : heap) (cp : nat * gostring) : Prop :=
  exists a, nth_error (h_ctxs h) (fst cp) = Some (mkCtx (KUnit pc) (Some (snd cp)) (DChained DEmbedded a)) /\ a < length (h_maps h).
(** What the parser of a unit file is *)
Definition parser_of (h : heap) (path : gostring) (p : uparser) : Prop :=
  exists text name, files path = Some text /\ room text /\ unit_called text name /\ loaded h pc p text path name.
Lemma parser_of_spread h h' path p : hok h -> spread h h' -> parser_of h path p -> parser_of h' path p.
Proof. intros K W (text & name & A & B & C & L). exists text, name. repeat (split; [assumption|]). eapply loaded_spread; eauto. Qed.

Lemma load_one cp h us : hok h -> prog_ctx h pc us -> fresh_uc h cp ->
  (forall text, files (snd cp) = Some text -> room text) ->
  match load_unit R files pc cp h with
  | ROk p h' => hok h' /\ prog_ctx h' pc (us ++ [up_unit p]) /\ spread h h' /\ parser_of h' (snd cp) p /\
      (forall cp', fresh_uc h cp' -> fresh_uc h' cp')
  | RErr e _ => e = EOther \/ exists text, files (snd cp) = Some text /\ error_at text (snd cp) e
  | RPanic => exists text, files (snd cp) = Some text /\ unknown_rune text
  | RHang => exists text, files (snd cp) = Some text /\ open_string text
  | RStuck => lax = true
  end.
Proof.
  intros K PC FU RM. unfold load_unit. destruct cp as [uc path]. cbn [fst snd] in *.
  destruct (files path) as [text|] eqn:Ef; [|now left]. specialize (RM text eq_refl). destruct FU as (a & Euc & La). cbn [fst snd] in Euc.
  assert (CP : ctx_path h uc = Some path) by (eapply ctx_path_of; [exact Euc|reflexivity]).
  pose proof (text_does text path (parse_ident_and_intf_uses R uc) uc h
    (fun u s' => h_ctxs (s_heap s') = h_ctxs h /\ s_ctx s' = uc /\
      exists name, unit_called text name /\ unit_headed (s_heap s') u name /\ interfaced (s_heap s') u) K CP) as X.
  assert (Y : forall s, okw text path s -> s_heap s = h -> s_ctx s = uc -> (forall ws, stands text s ws -> begins text ws) ->
    does text path (parse_ident_and_intf_uses R uc) s (fun u s' => h_ctxs (s_heap s') = h_ctxs h /\ s_ctx s' = uc /\
      exists name, unit_called text name /\ unit_headed (s_heap s') u name /\ interfaced (s_heap s') u)).
  { intros s O Hh Hc B. eapply does_conseq; [eapply (does_ident_and_intf_uses text path lax D n uc s path); [exact O|intros; now apply room_fuel| |now rewrite Hh]|].
    - rewrite Hh, Hc. eexists _, a. split; [exact Euc|]. split; [reflexivity|exact La].
    - cbn beta. intros u s' O' W M [[S1 S2] (name & St & UH & IF)]. split; [congruence|]. split; [congruence|].
      exists name. split; [now apply B|auto]. }
  specialize (X Y). destruct (run _ _) as [u s|e s| | |]; cbn [on_parser rbind]; eauto.
  destruct X as (O & W & Hc & Hx & name & UC & UH & IF).
  pose proof (proj1 (okw_iff _ _ _) O) as (Rd & Kh & Pth).
  assert (PC1 : prog_ctx (s_heap s) pc us) by (destruct PC as (o & E & Ko); exists o; rewrite Hc; auto).
  destruct (add_unit_keeps (s_heap s) pc us u Kh PC1) as (K2 & PC2 & SP2 & CX2).
  assert (SP : spread h (add_unit (s_heap s) pc u)) by (eapply spread_trans; [apply spread_wider; exact W|exact SP2]).
  split; [exact K2|]. split; [exact PC2|]. split; [exact SP|]. split.
  - exists text, name. split; [exact Ef|]. split; [exact RM|]. split; [exact UC|]. apply (loaded_spread (s_heap s)); auto. constructor; cbn; auto.
    eexists. rewrite Hc. split; [exact Euc|]. auto.
  - intros cp' (a' & E' & L'). exists a'. split.
    + apply CX2; [now rewrite Hc|]. intros Ep. rewrite Ep in E'. destruct PC as (o & E & Ko). rewrite E in E'. injection E' as ->. discriminate.
    + pose proof (sp_maps _ _ SP). lia.
Qed.
Lemma load_all cps : forall h us, hok h -> prog_ctx h pc us -> Forall (fresh_uc h) cps ->
  (forall cp text, In cp cps -> files (snd cp) = Some text -> room text) ->
  match each_of (load_unit R files pc) cps h with
  | ROk ps h' => hok h' /\ prog_ctx h' pc (us ++ map up_unit ps) /\ spread h h' /\
      Forall2 (fun cp p => parser_of h' (snd cp) p) cps ps
  | RErr e _ => e = EOther \/ exists cp text, In cp cps /\ files (snd cp) = Some text /\ error_at text (snd cp) e
  | RPanic => exists cp text, In cp cps /\ files (snd cp) = Some text /\ unknown_rune text
  | RHang => exists cp text, In cp cps /\ files (snd cp) = Some text /\ open_string text
  | RStuck => lax = true
  end.
Proof.
  induction cps as [|cp cps IH]; intros h us K PC FU RM; cbn [each_of].
  - split; [exact K|]. cbn. rewrite app_nil_r. split; [exact PC|]. split; [apply spread_refl|constructor].
  - inversion FU as [|? ? F1 F2]; subst. pose proof (load_one cp h us K PC F1 (fun t => RM cp t (or_introl eq_refl))) as X.
    destruct (load_unit R files pc cp h) as [p h1|e h1| | |]; cbn [rbind]; auto;
      try (destruct X as (text & E & X); exists cp, text; split; [now left|auto]; fail);
      try (destruct X as [X|(text & E & X)]; [now left|right; exists cp, text; split; [now left|auto]]; fail).
    destruct X as (K1 & PC1 & SP1 & PO1 & FR1).
    pose proof (IH h1 (us ++ [up_unit p]) K1 PC1) as Y.
    assert (F3 : Forall (fresh_uc h1) cps) by (eapply Forall_impl; [|exact F2]; auto).
    specialize (Y F3 (fun c t I => RM c t (or_intror I))).
    destruct (each_of _ cps h1) as [ps h2|e h2| | |]; cbn [rbind]; auto;
      try (destruct Y as (c & text & I & Y); exists c, text; split; [now right|auto]; fail);
      try (destruct Y as [Y|(c & text & I & Y)]; [now left|right; exists c, text; split; [now right|auto]]; fail).
    destruct Y as (K2 & PC2 & SP2 & FF). split; [exact K2|]. split; [cbn [map]; rewrite <- app_assoc in PC2; exact PC2|].
    split; [eapply spread_trans; eauto|]. constructor; [|exact FF]. eapply parser_of_spread; [exact K1|exact SP2|exact PO1].
Qed.

(** ** Interfaces *)
Lemma name_kept h h' u name : spread h h' -> unit_headed h u name -> unit_name h' u = unit_name h u.
Proof.
  intros W (o & E & _). destruct (sp_units _ _ W _ _ E) as (o' & E' & I & _). unfold unit_name. now rewrite E, E', I.
Qed.
Lemma find_name_in {A} (f g : A -> gostring) l name : (forall x, In x l -> f x = g x) -> find_name f l name = find_name g l name.
Proof.
  intros E. induction l as [|x l IH]; cbn; [reflexivity|]. rewrite (E x) by now left. rewrite IH; [reflexivity|]. intros y I. apply E. now right.
Qed.
Lemma intf_uses_kept h h' u : spread h h' -> interfaced h u -> unit_intf_uses h' u = unit_intf_uses h u /\
  forall us a, unit_intf_uses h u = Some us -> In a us -> uses_name h' a = uses_name h a.
Proof.
  intros W (o & sec & src & E & I1 & It & _). destruct (sp_units _ _ W _ _ E) as (o' & E' & _ & X).
  destruct (X sec I1) as (sec' & I2 & J). unfold unit_intf_uses. rewrite E, E', I1, I2, J. split; [reflexivity|].
  intros us a [= <-] Ia. clear - W It Ia. induction It as [|b i us l (x & Ex & _) It IH]; [destruct Ia|]. destruct Ia as [<-|Ia]; [|auto].
  destruct (sp_uses _ _ W _ _ Ex) as (x' & Ex' & I & _). unfold uses_name. now rewrite Ex, Ex', I.
Qed.

Definition trouble (paths : list gostring) (X : list rune -> gostring -> Prop) : Prop :=
  exists path text name, In path paths /\ files path = Some text /\ unit_called text name /\ X text name.
Definition error_within (paths : list gostring) (e : perr) : Prop :=
  exists path text, In path paths /\ files path = Some text /\ error_at text path e.
Lemma within_in paths paths' e : incl paths paths' -> error_within paths e -> error_within paths' e.
Proof. intros I (path & text & A & B). exists path, text. split; [now apply I|exact B]. Qed.
Lemma intf_one h0 h units p path : wider h0 h -> hok h -> prog_ctx h pc units ->
  (forall u, In u units -> exists name, unit_headed h0 u name) ->
  parser_of h path p -> interfaced h0 (up_unit p) ->
  (forall nm v, In nm (up_uses h0 p) -> find_name (unit_name h0) units nm = Some v -> unit_there h v) ->
  match intf_of R p h with
  | ROk p' h' => hok h' /\ wider h h' /\ parser_of h' path p' /\ up_unit p' = up_unit p /\ unit_there h' (up_unit p)
  | RErr e _ => error_within [path] e
  | RPanic => trouble [path] (fun text name => unknown_rune text \/ own_name text name)
  | RHang => trouble [path] (fun text _ => open_string text)
  | RStuck => lax = true
  end.
Proof.
  intros W K PC HN (text & name & Ef & RM & UC & L) IF0 TU. unfold intf_of.
  assert (S0 : spread h0 h) by now apply spread_wider.
  pose proof (intf_body_ends text path (up_uc p) (up_unit p) name (up_pst p h) path units RM (loaded_ok _ _ _ _ _ _ K L)) as X.
  cbn [up_pst s_heap] in X.
  assert (Z : forall us a v, unit_intf_uses h (up_unit p) = Some us -> In a us ->
     find_name (unit_name h) units (uses_name h a) = Some v -> unit_there h v).
  { intros us a v Eu Ia Ev. destruct (intf_uses_kept h0 h (up_unit p) S0 IF0) as [E1 E2]. rewrite E1 in Eu.
    apply (TU (uses_name h0 a) v).
    - unfold up_uses. rewrite Eu. now apply in_map.
    - rewrite <- Ev, (E2 us a Eu Ia). apply find_name_in. intros u I. destruct (HN u I) as [nm H]. symmetry. eapply name_kept; eauto. }
  specialize (X (loaded_path _ _ _ _ _ _ L) (loaded_units _ _ _ _ _ _ _ PC L) Z (l_name _ _ _ _ _ _ L) (l_intf _ _ _ _ _ _ L)).
  destruct (run _ _) as [x s|e s| | |]; cbn [on_parser rbind]; auto.
  - cbn [snd]. destruct X as (O & W1 & T). pose proof (proj1 (okw_iff _ _ _) O) as (Rd & Kh & Pth).
    split; [exact Kh|]. split; [exact W1|]. split; [|auto]. exists text, name. split; [exact Ef|]. split; [exact RM|]. split; [exact UC|].
    pose proof (loaded_spread h (s_heap s) pc p text path name K (spread_wider _ _ W1) L) as [A1 A2 A3 A4 A5].
    constructor; auto.
  - exists path, text. split; [now left|]. auto.
  - exists path, text, name. split; [now left|]. auto.
  - exists path, text, name. split; [now left|]. auto.
Qed.
Lemma trouble_in paths paths' X : incl paths paths' -> trouble paths X -> trouble paths' X.
Proof. intros I (path & text & name & A & B). exists path, text, name. split; [now apply I|exact B]. Qed.
Lemma intf_all h0 units todo : forall h paths, wider h0 h -> hok h -> prog_ctx h pc units ->
  (forall u, In u units -> exists name, unit_headed h0 u name) ->
  Forall2 (parser_of h) paths todo -> Forall (fun p => interfaced h0 (up_unit p)) todo ->
  (forall l1 p l2 nm v, todo = l1 ++ p :: l2 -> In nm (up_uses h0 p) -> find_name (unit_name h0) units nm = Some v ->
     In v (map up_unit l1) \/ unit_there h v) ->
  match each_of (intf_of R) todo h with
  | ROk ps h' => hok h' /\ wider h h' /\ Forall2 (parser_of h') paths ps /\ map up_unit ps = map up_unit todo /\
      Forall (unit_there h') (map up_unit todo)
  | RErr e _ => error_within paths e
  | RPanic => trouble paths (fun text name => unknown_rune text \/ own_name text name)
  | RHang => trouble paths (fun text _ => open_string text)
  | RStuck => lax = true
  end.
Proof.
  induction todo as [|p todo IH]; intros h paths W K PC HN FP FI HU; inversion FP as [|path ? paths' ? P1 P2]; subst; cbn [each_of].
  - split; [exact K|]. split; [apply wider_refl|]. repeat split; constructor.
  - inversion FI as [|? ? I1 I2]; subst.
    pose proof (intf_one h0 h units p path W K PC HN P1 I1) as X.
    assert (Z : forall nm v, In nm (up_uses h0 p) -> find_name (unit_name h0) units nm = Some v -> unit_there h v).
    { intros nm v A B. destruct (HU [] p todo nm v eq_refl A B) as [[]|?]; assumption. }
    specialize (X Z). destruct (intf_of R p h) as [p1 h1|e h1| | |]; cbn [rbind]; auto;
      try (revert X; apply trouble_in; intros y [->|[]]; now left);
      try (revert X; apply within_in; intros y [->|[]]; now left).
    destruct X as (K1 & W1 & P1' & Eu & T1).
    pose proof (IH h1 paths' (wider_trans _ _ _ W W1) K1 (prog_ctx_wider _ _ _ _ W1 PC) HN) as Y.
    assert (FP1 : Forall2 (parser_of h1) paths' todo).
    { clear - P2 K W1. induction P2; constructor; auto. eapply parser_of_spread; [exact K|apply spread_wider; exact W1|assumption]. }
    assert (HU1 : forall l1 q l2 nm v, todo = l1 ++ q :: l2 -> In nm (up_uses h0 q) -> find_name (unit_name h0) units nm = Some v ->
       In v (map up_unit l1) \/ unit_there h1 v).
    { intros l1 q l2 nm v E A B. destruct (HU (p :: l1) q l2 nm v) as [[<-|I]|T]; auto.
      - cbn. congruence.
      - right. now apply (w_there _ _ W1). }
    specialize (Y FP1 I2 HU1). destruct (each_of _ todo h1) as [ps h2|e h2| | |]; cbn [rbind]; auto;
      try (revert Y; apply trouble_in; intros y Iy; now right);
      try (revert Y; apply within_in; intros y Iy; now right).
    destruct Y as (K2 & W2 & FP2 & E2 & T2). split; [exact K2|]. split; [eapply wider_trans; eauto|]. split; [|split].
    + constructor; [|exact FP2]. eapply parser_of_spread; [exact K1|apply spread_wider; exact W2|exact P1'].
    + cbn. now rewrite Eu, E2.
    + cbn. constructor; [now apply (w_there _ _ W2)|exact T2].
Qed.

(** ** Implementations *)
Lemma impl_one h units p path : hok h -> prog_ctx h pc units -> Forall (unit_there h) units -> unit_there h (up_unit p) ->
  parser_of h path p ->
  match impl_of R p h with
  | ROk p' h' => hok h' /\ wider h h'
  | RErr e _ => error_within [path] e
  | RPanic => trouble [path] (fun text name => unknown_rune text \/ own_name text name)
  | RHang => trouble [path] (fun text _ => open_string text)
  | RStuck => lax = true
  end.
Proof.
  intros K PC TU Tu (text & name & Ef & RM & UC & L). unfold impl_of.
  pose proof (impl_and_init text path lax D n (2 * length text + 3) (room_rgood text path RM) (room_mu text) (room_asm text RM)
    (room_types text RM) (up_uc p) (up_unit p) (up_pst p h) path units (loaded_ok _ _ _ _ _ _ K L)) as X. cbn [up_pst s_heap] in X.
  assert (PU : forall s', wider h (s_heap s') -> parent_units (s_heap s') (up_uc p) = Some units).
  { intros s' W. eapply loaded_units; [eapply prog_ctx_wider; eauto|]. eapply loaded_spread; [exact K|apply spread_wider; exact W|exact L]. }
  specialize (X (loaded_path _ _ _ _ _ _ L) PU TU Tu).
  destruct (process_impl_and_init _ _ _ _) as [x s|e s| | |]; cbn [on_parser rbind]; auto.
  - destruct X as [O W]. apply okw_iff in O as (_ & Kh & _). auto.
  - exists path, text. split; [now left|]. auto.
  - exists path, text, name. split; [now left|]. repeat (split; [assumption|]). left. now apply crashes_rune.
  - exists path, text, name. split; [now left|]. auto.
Qed.
Lemma impl_all units todo : forall h paths, hok h -> prog_ctx h pc units -> Forall (unit_there h) units ->
  Forall (unit_there h) (map up_unit todo) -> Forall2 (parser_of h) paths todo ->
  match each_of (impl_of R) todo h with
  | ROk ps h' => hok h' /\ wider h h'
  | RErr e _ => error_within paths e
  | RPanic => trouble paths (fun text name => unknown_rune text \/ own_name text name)
  | RHang => trouble paths (fun text _ => open_string text)
  | RStuck => lax = true
  end.
Proof.
  induction todo as [|p todo IH]; intros h paths K PC TU TT FP; inversion FP as [|path ? paths' ? P1 P2]; subst; cbn [each_of].
  - split; [exact K|apply wider_refl].
  - inversion TT as [|? ? T1 T2]; subst. pose proof (impl_one h units p path K PC TU T1 P1) as X.
    destruct (impl_of R p h) as [p1 h1|e h1| | |]; cbn [rbind]; auto;
      try (revert X; apply trouble_in; intros y [->|[]]; now left);
      try (revert X; apply within_in; intros y [->|[]]; now left).
    destruct X as (K1 & W1).
    pose proof (IH h1 paths' K1 (prog_ctx_wider _ _ _ _ W1 PC)) as Y.
    assert (FP1 : Forall2 (parser_of h1) paths' todo).
    { clear - P2 K W1. induction P2; constructor; auto. eapply parser_of_spread; [exact K|apply spread_wider; exact W1|assumption]. }
    assert (UP : forall l, Forall (unit_there h) l -> Forall (unit_there h1) l).
    { intros l F. eapply Forall_impl; [|exact F]. intros u. apply (w_there _ _ W1). }
    specialize (Y (UP _ TU) (UP _ T2) FP1). destruct (each_of _ todo h1) as [ps h2|e h2| | |]; cbn [rbind]; auto;
      try (revert Y; apply trouble_in; intros y Iy; now right);
      try (revert Y; apply within_in; intros y Iy; now right).
    destruct Y as (K2 & W2). split; [exact K2|eapply wider_trans; eauto].
Qed.

(** ** The items of the program's uses clause *)
Lemma find_name_said {A} (nm : A -> gostring) l name x : find_name nm l name = Some x -> In x l /\ same_name name (nm x).
Proof.
  induction l as [|y l IH]; cbn; [discriminate|]. destruct (runes_equal _ _) eqn:E.
  - intros [= <-]. apply runes_equal_eq in E. split; [now left|]. unfold same_name. congruence.
  - intros H. destruct (IH H). auto.
Qed.
Lemma item_said h uses src a : items h uses src -> In a uses -> exists i, In i src /\ uses_name h a = fst i.
Proof.
  intros It. induction It as [|b i us l (x & Ex & N & _) It IH]; [intros []|]. intros [<-|J].
  - exists i. split; [now left|]. unfold uses_name. now rewrite Ex.
  - destruct (IH J) as (j & J1 & J2). exists j. split; [now right|exact J2].
Qed.
Definition called_so (h : heap) (src : uses_source) (u : nat) : Prop := exists i, In i src /\ same_name (unit_name h u) (fst i).
Lemma called_back h h' src u : wider h h' -> unit_there h u -> called_so h' src u -> called_so h src u.
Proof.
  intros W (o & E & _) (i & J & S). exists i. split; [exact J|].
  destruct (sp_units _ _ (spread_wider _ _ W) _ _ E) as (o' & E' & I & _). unfold unit_name in *. rewrite E in *. now rewrite E', I in S.
Qed.
Lemma name_all uses src m us : forall h, hok h -> items h uses src -> usable h m -> Forall (unit_there h) us ->
  match name_units uses m us h with
  | ROk _ h' => hok h' /\ wider h h' /\ Forall (called_so h src) us
  | RErr e _ => e = EOther
  | _ => False
  end.
Proof.
  induction us as [|u us IH]; intros h K It Um TU; cbn [name_units]; [split; [exact K|split; [apply wider_refl|constructor]]|].
  inversion TU as [|? ? Tu TU']; subst. destruct (find_name (uses_name h) uses (unit_name h u)) as [a|] eqn:Ea; [|reflexivity].
  assert (Ia : In a uses).
  { clear - Ea. revert Ea. induction uses as [|x l IH]; cbn; [discriminate|].
    destruct (runes_equal _ _); [intros [= ->]; now left|]. intros E. right. auto. }
  assert (CS : called_so h src u).
  { destruct (item_said h uses src a It Ia) as (i & Ii & Ni). exists i. split; [exact Ii|]. rewrite <- Ni. now apply find_name_said in Ea. }
  destruct (hok_fine h K) as [S F].
  assert (W1 : wstep h (uses_put_unit h a u)) by now apply wstep_uses_put.
  pose proof (items_wider _ _ _ _ (proj1 (proj2 (proj2 W1))) It) as It1. set (h1 := uses_put_unit h a u) in *. clearbody h1.
  assert (XO : exists o, nth_error (h_uses h1) a = Some o /\ i_loc (u_ident o) <> None).
  { clear - It1 Ia. induction It1 as [|b i us l (o & E & _ & _ & L) F IH]; [destruct Ia|]. destruct Ia as [<-|Ia]; eauto. }
  destruct XO as (o & Eo & Lo). rewrite Eo.
  pose proof (map_set_good lax h1 m [mkDecl (u_ident o) (NUses a)] (proj1 W1)) as X.
  assert (Um1 : usable h1 m) by (eapply usable_maps; [apply W1|exact Um]).
  assert (FA : Forall (fun d => i_loc (d_ident d) <> None /\ node_there nobody h1 (to_lower (i_name (d_ident d))) (d_node d) /\
              (lax = true \/ no_type d)) [mkDecl (u_ident o) (NUses a)]).
  { constructor; [|constructor]. split; [exact Lo|]. split; [|right; discriminate]. exists o. split; [exact Eo|].
    destruct W1 as (_ & F1 & _). unfold uses_fine in F1. rewrite Forall_forall in F1. apply F1. eapply nth_error_In; exact Eo. }
  specialize (X Um1 FA).
  assert (Y : forall h2, good_step lax h1 h2 ->
    match name_units uses m us h2 with ROk _ h' => hok h' /\ wider h h' /\ Forall (called_so h src) (u :: us) | RErr e _ => e = EOther | _ => False end).
  { intros h2 Gs. assert (W2 : wstep h h2) by (eapply wstep_trans; [exact W1|]; apply wstep_good; [apply W1|exact Gs]).
    pose proof (IH h2 (hok_step _ _ K W2)) as Y. destruct W2 as (_ & _ & W2 & _).
    specialize (Y (items_wider _ _ _ _ W2 It)). assert (Um2 : usable h2 m) by (eapply usable_maps; [apply W2|exact Um]).
    assert (TU2 : Forall (unit_there h2) us) by (eapply Forall_impl; [|exact TU']; intros v; apply (w_there _ _ W2)).
    specialize (Y Um2 TU2). destruct (name_units uses m us h2); auto. destruct Y as (Y1 & Y2 & Y3). split; [exact Y1|]. split; [eapply wider_trans; eauto|]. constructor; [exact CS|].
    rewrite Forall_forall in *. intros v J. apply (called_back h h2); [exact W2|now apply TU'|now apply Y3]. }
  destruct (map_set h1 m _) as [h2|h2 i|]; [now apply Y|now apply Y|destruct X].
Qed.

(** ** Contexts of units *)
Lemma new_uc_good h path : sound_but nobody h -> let '(h', c) := new_unit_context h pc path in
  good_step lax h h' /\ (exists a, h_ctxs h' = h_ctxs h ++ [mkCtx (KUnit pc) (Some path) (DChained DEmbedded a)] /\
    a < length (h_maps h')) /\ c = length (h_ctxs h).
Proof.
  intros S. unfold new_unit_context, new_chained. pose proof (new_map_good lax h S) as [[S1 G1] L1].
  destruct (new_map h) as [h1 a] eqn:En. cbn [fst snd] in *.
  assert (C1 : h_ctxs h1 = h_ctxs h) by (unfold new_map in En; injection En as <- _; reflexivity).
  set (o := mkCtx (KUnit pc) (Some path) (DChained DEmbedded a)).
  assert (G2 : grew lax h1 (with_ctxs (h_ctxs h1 ++ [o]) h1)).
  { constructor; auto; cbn; try (exists []; now rewrite app_nil_r).
    - exists []. rewrite app_nil_r. auto.
    - right. exists []. now rewrite app_nil_r.
    - exists [chead o]. now rewrite map_app. }
  split; [|split; [exists a; cbn; rewrite C1; auto|now rewrite C1]].
  split; [|eapply grew_trans; eauto]. destruct S1 as [A B]. split.
  - cbn. apply Forall_app. split; [eapply Forall_impl; [|exact A]; intros x; now apply (ctx_ok_grew lax)|].
    constructor; [|constructor]. split; [discriminate|]. cbn. auto.
  - cbn. eapply Forall_impl; [|exact B]. intros m. now apply (entries_grew lax).
Qed.
Lemma trim_without q : trim_suffix_quote (trim_prefix_quote q) = without_quotes q.
Proof.
  assert (A : forall (A : Type) (c : N) (x y : A), match c with 39%N => x | _ => y end = if (c =? 39)%N then x else y).
  { intros A c x y. destruct (N.eqb_spec c 39) as [->|N]; [reflexivity|]. destruct c as [|p]; [reflexivity|].
    do 6 (destruct p as [p|p|]; try reflexivity). congruence. }
  assert (B : forall q, trim_prefix_quote q = match q with c :: q' => if (c =? 39)%N then q' else q | [] => [] end).
  { intros [|c q']; [reflexivity|]. unfold trim_prefix_quote. apply (A _ c q'). }
  unfold without_quotes. rewrite <- B. generalize (trim_prefix_quote q) as q1. intros q1. unfold trim_suffix_quote.
  destruct (rev q1) as [|c q'] eqn:E.
  - apply (f_equal (@rev _)) in E. now rewrite rev_involutive in E.
  - apply (A _ c (rev q')).
Qed.
Lemma contexts_all uses src : forall h, hok h -> items h uses src ->
  let '(cps, h') := unit_contexts sep pc uses h in
  hok h' /\ wider h h' /\ (exists l, h_ctxs h' = h_ctxs h ++ l) /\ Forall (fresh_uc h') cps /\ map snd cps = unit_files sep src.
Proof.
  intros h K It. revert h K It. revert src. induction uses as [|a uses IH]; intros src h K It; inversion It as [|? i ? src' (o & Eo & Ni & Pi & _) It']; subst; cbn [unit_contexts].
  - split; [exact K|]. split; [apply wider_refl|]. split; [exists []; now rewrite app_nil_r|]. split; [constructor|reflexivity].
  - rewrite Eo.
    assert (EP : item_file sep i = match effective_path sep o with [] => [] | p => [p] end).
    { unfold item_file, effective_path, unquoted_path. rewrite Pi. destruct (snd i) as [q|]; [|reflexivity]. now rewrite trim_without. }
    cbn [unit_files flat_map]. rewrite EP. destruct (runes_eqb_spec (effective_path sep o) []) as [E0|N0].
    + rewrite E0. cbn [app]. now apply IH.
    + pose proof (new_uc_good h (effective_path sep o) (proj1 K)) as X.
      destruct (new_unit_context h pc (effective_path sep o)) as [h1 c]. destruct X as (Gs & (b & C1 & L1) & ->).
      assert (W1 : wstep h h1) by (apply wstep_good; [apply K|exact Gs]).
      pose proof (IH src' h1 (hok_step _ _ K W1) (items_wider _ _ _ _ (proj1 (proj2 (proj2 W1))) It')) as Y.
      destruct (unit_contexts sep pc uses h1) as [l h2]. destruct Y as (K2 & W2 & (cx & C2) & F2 & E2).
      split; [exact K2|]. split; [eapply wider_trans; [apply W1|exact W2]|]. split; [|split].
      * exists (mkCtx (KUnit pc) (Some (effective_path sep o)) (DChained DEmbedded b) :: cx). rewrite C2, C1, <- app_assoc. reflexivity.
      * constructor; [|exact F2]. exists b. cbn [fst snd]. split.
        -- rewrite C2, C1, <- app_assoc, nth_error_app2, Nat.sub_diag by lia. reflexivity.
        -- pose proof (w_maps _ _ W2). lia.
      * cbn [map snd]. unfold unit_files in E2. rewrite E2. destruct (effective_path sep o); [congruence|reflexivity].
Qed.

(** ** The units of a program *)
Lemma forall2_nth {A B} (P : A -> B -> Prop) l1 l2 i y : Forall2 P l1 l2 -> nth_error l2 i = Some y ->
  exists x, nth_error l1 i = Some x /\ P x y.
Proof.
  intros F. revert i. induction F as [|a b l1 l2 H F IH]; intros [|i] E; cbn in *; try discriminate.
  - injection E as <-. eauto.
  - auto.
Qed.
Lemma up_name_is h p text path name : loaded h pc p text path name -> up_name h p = name.
Proof. intros L. destruct (l_name _ _ _ _ _ _ L) as (o & E & _ & N). unfold up_name, unit_name. now rewrite E. Qed.
Lemma up_uses_distinct h p : interfaced h (up_unit p) -> distinct_names (up_uses h p).
Proof.
  intros (o & sec & src & E & I & It & Dn). unfold up_uses, unit_intf_uses. rewrite E, I.
  replace (map (uses_name h) (or_nil (is_uses sec))) with (map fst src); [exact Dn|].
  clear - It. induction It as [|a i us l (x & Ex & N & _) It IH]; cbn; [reflexivity|]. rewrite IH. f_equal.
  unfold uses_name. now rewrite Ex.
Qed.
(** No two of the files have units of one name. *)
Definition one_each (paths : list gostring) : Prop :=
  forall i j p q t1 t2 n1 n2, nth_error paths i = Some p -> nth_error paths j = Some q ->
    files p = Some t1 -> files q = Some t2 -> unit_called t1 n1 -> unit_called t2 n2 -> same_name n1 n2 -> i = j.
Lemma paths_of h paths (l : list uparser) : Forall (fun p => exists path, In path paths /\ parser_of h path p) l ->
  exists paths', incl paths' paths /\ Forall2 (parser_of h) paths' l.
Proof.
  induction 1 as [|p l (path & I & P) F (ps & Inc & FF)]; [exists []; split; [intros x []|constructor]|].
  exists (path :: ps). split; [intros x [<-|X]; auto|]. now constructor.
Qed.
Definition ran_into (paths : list gostring) (X : list rune -> Prop) : Prop :=
  exists path text, In path paths /\ files path = Some text /\ X text.
Definition own_named (text : list rune) : Prop := exists name, unit_called text name /\ own_name text name.
Lemma load_units_ends uses src pa po mp h : iterates order -> toposort_ok topo ->
  hok h -> prog_ctx h pc [] -> items h uses src -> nth_error (h_progs h) pa = Some po -> i_loc (pr_ident po) <> None ->
  ctx_path h pc = Some mp ->
  (forall path text, In path (unit_files sep src) -> files path = Some text -> room text) -> one_each (unit_files sep src) ->
  match load_units R files sep order topo pc pa uses h with
  | ROk _ h' => (hok h' /\ spread h h') /\ named_units files sep src
  | RErr e _ => e = EOther \/ error_within (unit_files sep src) e
  | RPanic => ran_into (unit_files sep src) (fun text => unknown_rune text \/ own_named text)
  | RHang => ran_into (unit_files sep src) open_string
  | RStuck => lax = true
  end.
Proof.
  intros IO TO K PC It Ep Lp CPm RM OE. unfold load_units.
  pose proof (contexts_all uses src h K It) as X. destruct (unit_contexts sep pc uses h) as [cps h1].
  destruct X as (K1 & W1 & _ & F1 & E1).
  pose proof (load_all cps h1 [] K1 (prog_ctx_wider _ _ _ _ W1 PC) F1) as X.
  assert (IN : forall cp, In cp cps -> In (snd cp) (unit_files sep src)) by (intros cp I; rewrite <- E1; now apply in_map).
  specialize (X (fun cp text I => RM (snd cp) text (IN cp I))).
  destruct (each_of (load_unit R files pc) cps h1) as [ps h2|e h2| | |]; cbn [rbind]; auto;
    try (destruct X as (cp & text & I & Ef & X); exists (snd cp), text; auto; fail);
    try (destruct X as [X|(cp & text & I & Ef & X)]; [now left|right; exists (snd cp), text; auto]; fail).
  destruct X as (K2 & PC2 & SP2 & FP). cbn [app] in PC2.
  assert (FP' : Forall2 (parser_of h2) (unit_files sep src) ps).
  { rewrite <- E1. clear - FP. induction FP; constructor; auto. }
  assert (DN : distinct_names (map (up_name h2) ps)).
  { unfold distinct_names. rewrite map_map. apply NoDup_nth_error. intros i j Li Eij. rewrite map_length in Li.
    destruct (nth_error ps i) as [p|] eqn:Ei; [|apply nth_error_None in Ei; lia].
    rewrite (map_nth_error _ _ _ Ei) in Eij.
    destruct (nth_error ps j) as [q|] eqn:Ej.
    2:{ apply nth_error_None in Ej. symmetry in Eij. assert (Lj : nth_error (map (fun x => to_lower (up_name h2 x)) ps) j = None) by (apply nth_error_None; now rewrite map_length). congruence. }
    rewrite (map_nth_error _ _ _ Ej) in Eij. injection Eij as Eij.
    destruct (forall2_nth _ _ _ _ _ FP' Ei) as (pi & Pi & ti & ni & A1 & _ & A2 & A3).
    destruct (forall2_nth _ _ _ _ _ FP' Ej) as (pj & Pj & tj & nj & B1 & _ & B2 & B3).
    rewrite (up_name_is _ _ _ _ _ A3), (up_name_is _ _ _ _ _ B3) in Eij.
    eapply OE; eauto. }
  assert (FI : Forall (fun p => interfaced h2 (up_unit p)) ps).
  { clear - FP'. induction FP' as [|x p l1 l2 (t & nm & _ & _ & _ & L)]; constructor; auto. apply L. }
  assert (FD : Forall (fun p => distinct_names (up_uses h2 p)) ps).
  { eapply Forall_impl; [|exact FI]. intros p. apply up_uses_distinct. }
  destruct (units_are_sorted uparser (up_name h2) (up_uses h2) order topo ps IO TO DN FD) as [SA SB].
  destruct (sort_units (up_name h2) (up_uses h2) order topo ps) as [sorted|] eqn:ES; [|now left].
  destruct SA as (r & [= <-] & Pm & Bf); [intros C; specialize (SB C); discriminate|]. clear SB.
  assert (ND : NoDup ps).
  { unfold distinct_names in DN. rewrite map_map in DN. now apply NoDup_map_inv in DN. }
  assert (NDs : NoDup sorted) by (eapply Permutation_NoDup; [apply Permutation_sym; exact Pm|exact ND]).
  assert (FPs : Forall (fun p => exists path, In path (unit_files sep src) /\ parser_of h2 path p) sorted).
  { apply Forall_forall. intros p I. apply (Permutation_in _ Pm) in I. apply In_nth_error in I as (i & Ei).
    destruct (forall2_nth _ _ _ _ _ FP' Ei) as (path & Pi & PO). exists path. split; [eapply nth_error_In; eauto|exact PO]. }
  destruct (paths_of _ _ _ FPs) as (paths' & Inc & FFs).
  assert (FIs : Forall (fun p => interfaced h2 (up_unit p)) sorted).
  { apply Forall_forall. intros p I. rewrite Forall_forall in FI. apply FI. eapply Permutation_in; eauto. }
  assert (TR : forall X, trouble paths' X -> ran_into (unit_files sep src) (fun text => exists name, unit_called text name /\ X text name)).
  { intros Y (path & text & name & A & B & C & E). exists path, text. split; [auto|]. split; [exact B|]. eauto. }
  pose proof (intf_all h2 (map up_unit ps) sorted h2 paths' (wider_refl h2) K2 PC2) as X.
  assert (HN : forall u, In u (map up_unit ps) -> exists name, unit_headed h2 u name).
  { intros u I. apply in_map_iff in I as (p & <- & I). apply In_nth_error in I as (i & Ei).
    destruct (forall2_nth _ _ _ _ _ FP' Ei) as (path & Pi & t & nm & _ & _ & _ & L). exists nm. apply L. }
  assert (HU : forall l1 p l2 nm v, sorted = l1 ++ p :: l2 -> In nm (up_uses h2 p) -> find_name (unit_name h2) (map up_unit ps) nm = Some v ->
     In v (map up_unit l1) \/ unit_there h2 v).
  { intros l1 p l2 nm v El In1 Fv. left. apply find_name_said in Fv as [Iv Sv]. apply in_map_iff in Iv as (q & <- & Iq).
    apply in_map. assert (Ip : In p ps) by (eapply Permutation_in; [exact Pm|]; rewrite El; apply in_or_app; right; now left).
    apply (before_prefix l1 l2 q p); [now rewrite <- El|]. rewrite <- El. apply Bf; auto. exists nm. split; [exact In1|exact Sv]. }
  specialize (X HN FFs FIs HU).
  destruct (each_of (intf_of R) sorted h2) as [sorted1 h3|e h3| | |]; cbn [rbind]; auto.
  2:{ right. now apply (within_in paths'). }
  2:{ apply TR in X as (path & text & A & B & name & C & [E|E]); exists path, text; (split; [exact A|]); (split; [exact B|]); [now left|right; exists name; auto]. }
  2:{ apply TR in X as (path & text & A & B & name & C & E). exists path, text. auto. }
  destruct X as (K3 & W3 & FP3 & EU & TH).
  assert (THp : Forall (unit_there h3) (map up_unit ps)).
  { apply Forall_forall. intros u I. rewrite Forall_forall in TH. apply TH. eapply Permutation_in; [apply Permutation_map, Permutation_sym, Pm|exact I]. }
  pose proof (impl_all (map up_unit ps) sorted1 h3 paths' K3 (prog_ctx_wider _ _ _ _ W3 PC2) THp) as X.
  rewrite EU in X. specialize (X TH FP3).
  destruct (each_of (impl_of R) sorted1 h3) as [sorted2 h4|e h4| | |]; cbn [rbind]; auto.
  2:{ right. now apply (within_in paths'). }
  2:{ apply TR in X as (path & text & A & B & name & C & [E|E]); exists path, text; (split; [exact A|]); (split; [exact B|]); [now left|right; exists name; auto]. }
  2:{ apply TR in X as (path & text & A & B & name & C & E). exists path, text. auto. }
  destruct X as (K4 & W4). clear TR.
  pose proof (new_map_good lax h4 (proj1 K4)) as [G5 L5]. destruct (new_map h4) as [h5 um]. cbn [fst snd] in G5, L5.
  assert (W5 : wstep h4 h5) by (apply wstep_good; [apply K4|exact G5]).
  assert (K5 : hok h5) by (eapply hok_step; eauto).
  assert (SPx : spread h h5).
  { eapply spread_trans; [apply spread_wider; exact W1|]. eapply spread_trans; [exact SP2|]. eapply spread_trans; [apply spread_wider; exact W3|].
    eapply spread_trans; [apply spread_wider; exact W4|]. apply spread_wider, W5. }
  assert (TH5 : Forall (unit_there h5) (map up_unit ps)).
  { eapply Forall_impl; [|exact THp]. intros u T. apply (w_there _ _ (proj1 (proj2 (proj2 W5)))), (w_there _ _ W4), T. }
  pose proof (name_all uses src (DImpl um) (map up_unit ps) h5 K5 (items_spread _ _ _ _ SPx It) L5 TH5) as X.
  destruct (name_units uses (DImpl um) (map up_unit ps) h5) as [x h6|e h6| | |]; cbn [rbind]; auto; try contradiction.
  destruct X as (K6 & W6 & CA).
  assert (NU : named_units files sep src).
  { assert (SP5 : spread h2 h5).
    { eapply spread_trans; [apply spread_wider; exact W3|]. eapply spread_trans; [apply spread_wider; exact W4|]. apply spread_wider, W5. }
    clear - FP' CA SP5. unfold named_units. induction FP' as [|path p paths l (text & name & Ef & _ & UC & L) FP' IH]; [constructor|].
    inversion CA as [|? ? (i & Ii & Si) CA']; subst. constructor; [|now apply IH]. exists text, name, i. split; [exact Ef|]. split; [exact UC|].
    split; [exact Ii|]. rewrite (name_kept _ _ _ _ SP5 (l_name _ _ _ _ _ _ L)) in Si.
    pose proof (up_name_is _ _ _ _ _ L) as En. unfold up_name in En. now rewrite En in Si. }
  pose proof (new_map_good lax h6 (proj1 K6)) as [G7 L7]. destruct (new_map h6) as [h7 local]. cbn [fst snd] in G7, L7.
  assert (W7 : wstep h6 h7) by (apply wstep_good; [apply K6|exact G7]).
  assert (K7 : hok h7) by (eapply hok_step; eauto).
  assert (SP7 : spread h h7).
  { eapply spread_trans; [exact SPx|]. eapply spread_trans; [apply spread_wider; exact W6|]. apply spread_wider, W7. }
  destruct (ctx_path_inv _ _ _ (proj1 K7) (ctx_path_spread _ _ _ _ K SP7 CPm)) as (co & Eco & _ & _ & Uco).
  destruct (sp_progs _ _ SP7 _ _ Ep) as (po' & Ep' & Ip'). rewrite Eco, Ep'. cbv zeta.
  set (maps := [DImpl local; DImpl um] ++ _). set (h8 := ctx_put_map h7 pc (DComposite maps)).
  assert (Um : usable h7 (DComposite maps)).
  { apply usable_all. split; [discriminate|]. unfold maps. cbn [app]. constructor; [exact L7|]. constructor.
    - cbn. pose proof (w_maps _ _ W6). pose proof (w_maps _ _ (proj1 (proj2 (proj2 W7)))). lia.
    - apply Forall_app. split; [|constructor; [exact Uco|constructor]]. rewrite MapMain.maps_reverse_rev. apply Forall_rev, units_maps_usable.
      eapply Forall_impl; [|exact TH5]. intros u T. apply (w_there _ _ (proj1 (proj2 (proj2 W7)))), (w_there _ _ W6), T. }
  pose proof (put_map_good lax h7 pc _ (proj1 K7) Um) as G8. fold h8 in G8.
  assert (W8 : wstep h7 h8) by (apply wstep_good; [apply K7|exact G8]).
  assert (P8 : nth_error (h_progs h8) pa = Some po') by (rewrite (g_progs _ _ _ (proj2 G8)); exact Ep').
  assert (L8 : local < length (h_maps h8)) by (pose proof (w_maps _ _ (proj1 (proj2 (proj2 W8)))); lia). clearbody h8.
  set (np := mkProg (pr_path po') (pr_ident po') (pr_block po') (DImpl local)). set (h9 := with_progs (set_nth pa np (h_progs h8)) h8).
  assert (W9 : wstep h8 h9).
  { apply wstep_put_prog; [apply W8|apply W8|]. intros o Eo. assert (o = po') by congruence. subst o. split; [reflexivity|]. intros _. exact L8. }
  assert (K9 : hok h9) by (eapply hok_step; [eapply hok_step; [exact K7|exact W8]|exact W9]).
  assert (SP9 : spread h h9).
  { eapply spread_trans; [exact SP7|]. eapply spread_trans; [apply spread_wider, W8|apply spread_wider, W9]. }
  pose proof (map_set_good lax h9 (DImpl local) [mkDecl (pr_ident po') (NProgram pa)] (proj1 K9) L8) as X.
  assert (FA : Forall (fun d => i_loc (d_ident d) <> None /\ node_there nobody h9 (to_lower (i_name (d_ident d))) (d_node d) /\
              (lax = true \/ no_type d)) [mkDecl (pr_ident po') (NProgram pa)]).
  { constructor; [|constructor]. split; [cbn; congruence|]. split; [|right; discriminate]. exists np. split; [|exact L8].
    unfold h9. cbn. eapply nth_set_same; exact P8. }
  specialize (X FA).
  assert (Y : forall h10, good_step lax h9 h10 -> (hok h10 /\ spread h h10) /\ named_units files sep src).
  { intros h10 Gs. split; [|exact NU]. assert (W10 : wstep h9 h10) by (apply wstep_good; [apply K9|exact Gs]). split; [eapply hok_step; eauto|].
    eapply spread_trans; [exact SP9|apply spread_wider, W10]. }
  destruct (map_set h9 _ _) as [h10|h10 i|]; [now apply Y|now apply Y|destruct X].
Qed.
End Loading.
End WithUnicode.
