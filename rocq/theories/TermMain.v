(** The parser returns: the theorems. *)
From Coq Require Import String List NArith Bool Arith Lia.
From Verif Require Import ListUtil Runes UnicodeFacts Token Tokenizer CursorFacts TokenizerFacts LexSpec LexShape LexFacts LexMain
  Ast Ext Heap Classes MapSpec MapFacts Prog Parser ParseSpec RunFacts WpFacts CaseSpec TermSpec TermHeap TermFacts TermExpr
  TermTypes TermClass TermStmt FuelFacts.
Import ListNotations.
Local Open Scope list_scope.

Section WithUnicode.
Context {U : Unicode} {UOK : UnicodeOk U}.

(** ** Texts that are read to the end *)
Section Whole.
Variable text : list rune.
Variable all : list token.
Variable e : token.
Variable cE : cursor.
Hypothesis RUN : LexFacts.run (new_cursor text) (all ++ [e]) cE.
Hypothesis EOFE : process cE = Match e cE.
Let visited (c : cursor) : Prop :=
  exists done rest c1, all ++ [e] = done ++ rest /\ LexFacts.run (new_cursor text) done c1 /\
    LexFacts.run c1 rest cE /\ csim c1 c.
Lemma visited_next c : visited c ->
  exists t c', process c = Match t c' /\ visited c' /\ exists u, In u (all ++ [e]) /\ same_token u t.
Proof.
  intros (done & rest & c1 & E & R1 & R2 & S). pose proof (run_wf _ _ _ R1 (new_cursor_wf text)) as W1.
  pose proof (process_sim c1 c S W1) as P. destruct rest as [|u rest].
  - inversion R2; subst. rewrite EOFE in P. destruct (process c) as [|t c'|]; try contradiction.
    destruct P as [ST S']. exists t, c'. split; [reflexivity|]. split.
    + exists done, [], cE. repeat split; auto; try apply S'; constructor.
    + exists e. split; [apply in_or_app; right; now left|exact ST].
  - inversion R2 as [|? ? c2 ? ? P1 R3]; subst. rewrite P1 in P. destruct (process c) as [|t c'|]; try contradiction.
    destruct P as [ST S']. exists t, c'. split; [reflexivity|]. split.
    + exists (done ++ [u]), rest, c2. split; [now rewrite <- app_assoc|]. split; [|split; [exact R3|exact S']].
      eapply run_app; [exact R1|]. econstructor; [exact P1|constructor].
    + exists u. split; [rewrite E; apply in_or_app; right; now left|exact ST].
Qed.
Lemma visited_run c ts c' : LexFacts.run c ts c' -> visited c ->
  visited c' /\ Forall (fun t => exists u, In u (all ++ [e]) /\ same_token u t) ts.
Proof.
  induction 1 as [c|c t c1 ts c2 P R IH]; intros V; [auto|].
  destruct (visited_next c V) as (t' & c' & P' & V' & I). rewrite P in P'. injection P' as <- <-.
  destruct (IH V'). auto.
Qed.
Lemma held_visited k : held text k -> visited (tk_cur k).
Proof.
  induction 1 as [sp cm|k t k' H IH G|k k' H IH G|k H IH].
  - exists [], (all ++ [e]), (new_cursor text). repeat split; auto. constructor.
  - destruct (get_next_tok _ _ _ (proj1 (held_wf _ _ H)) G) as (ts & R & _). eapply visited_run; eauto.
  - exfalso. destruct (get_next_run k (proj1 (held_wf _ _ H))) as (ts & c' & R & _ & M).
    destruct (visited_run _ _ _ R IH) as [V _]. destruct (visited_next _ V) as (t & c2 & P & _).
    rewrite P in M. destruct M. congruence.
  - destruct IH as (done & rest & c1 & E & R1 & R2 & S). exists done, rest, c1. repeat split; auto; apply S.
Qed.
Lemma held_reads_on k : held text k ->
  exists t k', get_next k = GTok t k' /\ exists u, In u (all ++ [e]) /\ same_token u t.
Proof.
  intros H. destruct (get_next_run k (proj1 (held_wf _ _ H))) as (ts & c' & R & _ & M).
  destruct (visited_run _ _ _ R (held_visited k H)) as [V _]. destruct (visited_next _ V) as (t & c2 & P & _ & I).
  rewrite P in M. destruct M as [_ M]. eauto.
Qed.
End Whole.

Lemma reads_split k ts1 ts2 k2 : reads k (ts1 ++ ts2) k2 -> exists k1, reads k ts1 k1 /\ reads k1 ts2 k2.
Proof.
  revert k. induction ts1 as [|t ts1 IH]; intros k R; [exists k; split; [constructor|exact R]|].
  inversion R as [|? ? k1 ? ? G R']; subst. destruct (IH _ R') as (k3 & A & B). exists k3. split; [econstructor; eauto|exact B].
Qed.
Lemma whole_run text ts e k : reads (new_tokenizer text false false) (ts ++ [e]) k -> t_type e = EOF ->
  exists all, LexFacts.run (new_cursor text) (all ++ [e]) (tk_cur k) /\ process (tk_cur k) = Match e (tk_cur k) /\
    forall u, In u (all ++ [e]) -> keep false false u = true -> In u (ts ++ [e]).
Proof.
  intros R E. destruct (reads_split _ _ _ _ R) as (km & R1 & R2). inversion R2 as [|? ? k1 ? ? G R3]; subst. inversion R3; subst.
  pose proof (reads_wf _ _ _ R1 (new_cursor_wf text)) as W. destruct (reads_run _ _ _ R1 (new_cursor_wf text)) as (all & RA & ->).
  pose proof (reads_flags _ _ _ R1 (new_cursor_wf text)) as [F1 F2].
  destruct (get_next_tok _ _ _ W G) as (sk & RS & FS & _). rewrite F1, F2 in FS.
  exists (all ++ sk). split; [rewrite <- app_assoc; eapply run_app; eauto|].
  split; [now destruct (get_next_eof_inv _ _ _ W G E) as (c' & _ & P & _)|].
  intros u I K. rewrite <- app_assoc in I. cbn in FS.
  apply in_app_or in I as [I|I]; [apply in_or_app; left; now apply filter_In|].
  apply in_app_or in I as [I|I]; [|apply in_or_app; now right].
  rewrite Forall_forall in FS. rewrite (FS u I) in K. discriminate.
Qed.
Theorem read_to_the_end_iff :
  forall text, (exists ts e k, reads (new_tokenizer text false false) (ts ++ [e]) k /\ t_type e = EOF) <->
  ~ open_string text /\ ~ unknown_rune text.
Proof.
  intros text. split.
  - intros (ts & e & k & R & E). destruct (whole_run _ _ _ _ R E) as (all & RA & P & _). split.
    + intros (k0 & H & G). destruct (held_reads_on text all e _ RA P k0 H) as (t & k' & G' & _). congruence.
    + intros (k0 & k1 & H & G). destruct (held_reads_on text all e _ RA P k0 H) as (t & k' & G' & _). congruence.
  - intros [NO NU]. destruct (stream_ends text false false) as (ts & k & R & _ & _ & O).
    assert (H : held text k) by (eapply LexFacts.reads_held; [exact R|constructor]).
    destruct O as [G|[(k' & G)|(e & k' & G & E)]].
    + destruct NO. exists k. auto.
    + destruct NU. exists k, k'. auto.
    + exists ts, e, k'. split; [|exact E]. clear - R G. induction R; [econstructor; [exact G|constructor]|].
      cbn. econstructor; eauto.
Qed.
Lemma tokens_of_the_whole text ts e k t : reads (new_tokenizer text false false) (ts ++ [e]) k -> t_type e = EOF ->
  token_of text t -> keep false false t = true -> exists u, In u (ts ++ [e]) /\ alike u t.
Proof.
  intros R E (k0 & k1 & H & G) K. destruct (whole_run _ _ _ _ R E) as (all & RA & P & IN).
  destruct (held_reads_on text all e _ RA P k0 H) as (t' & k' & G' & u & I & ST). rewrite G in G'. injection G' as <- <-.
  exists u. split; [|now apply same_token_alike]. apply IN; [exact I|]. unfold keep in *. destruct ST as (T & _). now rewrite T.
Qed.

Section Knot.
Context {unmapped : Unmapped}.
Variable text : list rune.
Variable path : gostring.
Variable lax : bool.
Variable D : nat.
Local Notation ok := (TermFacts.ok text path lax D).
Local Notation pre := (TermFacts.pre text path lax D).
Local Notation fin := (TermFacts.fin text path lax D).
Local Notation mu := (TermFacts.mu text).

Lemma rgood_at n : forall m, lax = true \/ m + D + 1 <= n -> rgood text path lax D (recs_at n) m.
Proof.
  induction n as [|n IH]; intros m L.
  - assert (LX : lax = true) by (destruct L; [assumption|lia]).
    constructor; intros; try (now left); now apply (fin_nofuel text path lax D).
  - assert (ST : forall s, lax = true \/ mu s < m -> rgood text path lax D (recs_at n) (m - 1) /\ (lax = true \/ mu s <= m - 1)).
    { intros s B. split; [apply IH|]; destruct L, B; auto; right; lia. }
    constructor; cbn [recs_at r_fuel r_expr r_factor r_type r_fields r_stmt r_block].
    + destruct L; [now left|right; lia].
    + intros s O B. destruct (ST s B) as [G B']. eapply fin_parse_expression; eauto.
    + intros s O B. destruct (ST s B) as [G B']. eapply fin_parse_factor; eauto.
    + intros s O B. destruct (ST s B) as [G B']. eapply fin_parse_type; eauto.
    + intros term s O B. destruct (ST s B) as [G B']. eapply fin_parse_field_list; eauto.
    + intros NA s O B. destruct (ST s B) as [G B']. eapply fin_parse_statement; eauto.
    + intros NA NT s O B. destruct (ST s B) as [G B']. eapply fin_parse_block; eauto.
Qed.

Lemma mu_bound s : mu s <= 2 * length text + 2.
Proof. unfold TermFacts.mu, tokmu. destruct (s_cur s) as [t|]; [destruct (ttype_eqb _ _)|]; lia. Qed.

(** A method on a text, from the first token on *)
Lemma fin_text {A} (p : prog A) c h (Q : A -> pst -> Prop) :
  sound_but unmapped h -> ctx_path h c = Some path -> lax = true \/ (1 <= D /\ shallow D h) ->
  (forall s, ok s -> s_heap s = h -> fin (place s) p s Q) ->
  match parse_text p text c h with
  | OOk a s' => ok s'
  | OErr e s' => ok s' /\ cited text path 0 e s'
  | OPanic => crashes text
  | OHang => open_string text
  | OStuck => lax = true
  end.
Proof.
  intros SO CP SH F. unfold parse_text. set (s0 := mkPst _ _ _ _ _).
  assert (P : pre s0).
  { split; [split; [split; [constructor|auto]|discriminate]|]. split; [discriminate|]. auto. }
  pose proof (next_pre text path lax D s0 P) as N. cbn [run]. destruct (next_token s0) as [x s1| | | |]; try contradiction; [|exact N].
  destruct N as (O & _ & Hh & _ & PL & _). specialize (F s1 O Hh). unfold TermFacts.fin in F.
  destruct (run p s1) as [a s'|e s'| | |]; auto; [apply F|]. destruct F as (O' & _ & C). split; [exact O'|].
  eapply cited_le; [|exact C]. lia.
Qed.
End Knot.
Lemma rgood_lax {unmapped : Unmapped} text path n : rgood text path true 1 (recs_at n) 0.
Proof. apply rgood_at. now left. Qed.

(** From here on every declared unit has its declarations. *)
Definition nobody : Unmapped := fun _ _ => False.
#[local] Existing Instance nobody.
Lemma crashes_rune text : crashes text -> unknown_rune text.
Proof. intros [C|(t & t1 & _ & _ & _ & ? & [])]. exact C. Qed.

Lemma fin_returns {A} text path D (p : prog A) s Q : 1 <= D -> TermFacts.fin text path false D (place s) p s Q ->
  returns text path (place s) (run p s) /\ still_shallow D (run p s).
Proof.
  intros HD F. unfold TermFacts.fin in F. unfold returns, safe, still_shallow.
  destruct (run p s) as [a s'|e s'| | |]; try discriminate.
  - destruct F as (O & _). apply ok_ready in O as [Rd [X|[_ Sh]]]; [discriminate|]. split; [|exact Sh]. split; [exact Rd|discriminate].
  - destruct F as (O & _ & C). apply ok_ready in O as [Rd [X|[_ Sh]]]; [discriminate|]. split; [|exact Sh]. split; [auto|discriminate].
  - split; [split; [auto using crashes_rune|discriminate]|auto].
  - split; [split; [auto using crashes_rune|discriminate]|auto].
Qed.
Lemma text_returns {A} text path D (p : prog A) c h : 1 <= D -> sound h -> shallow D h -> ctx_path h c = Some path ->
  (forall s, TermFacts.ok text path false D s -> exists Q, TermFacts.fin text path false D (place s) p s Q) ->
  returns text path 0 (parse_text p text c h) /\ still_shallow D (parse_text p text c h).
Proof.
  intros HD SO SH CP F.
  assert (F' : forall s, TermFacts.ok text path false D s -> s_heap s = h -> TermFacts.fin text path false D (place s) p s (fun _ _ => True)).
  { intros s O _. destruct (F s O) as [Q FQ]. eapply fin_conseq; [exact FQ|lia|auto]. }
  pose proof (fin_text text path false D p c h (fun _ _ => True) SO CP (or_intror (conj HD SH)) F') as X.
  unfold returns, safe, still_shallow.
  destruct (parse_text p text c h) as [a s'|e s'| | |]; try discriminate.
  - apply ok_ready in X as [Rd [X|[_ Sh]]]; [discriminate|]. split; [|exact Sh]. split; [exact Rd|discriminate].
  - destruct X as (O & C). apply ok_ready in O as [Rd [X|[_ Sh]]]; [discriminate|]. split; [|exact Sh]. split; [auto|discriminate].
  - split; [split; [auto using crashes_rune|discriminate]|auto].
  - split; [split; [auto using crashes_rune|discriminate]|auto].
Qed.
Lemma fin_safe {A} text path (p : prog A) s Q : TermFacts.fin text path true 1 (place s) p s Q ->
  safe text path (place s) (run p s).
Proof.
  unfold TermFacts.fin, safe. destruct (run p s) as [a s'|e s'| | |]; auto using crashes_rune.
  - intros (O & _). now apply ok_ready in O.
  - intros (O & _ & C). apply ok_ready in O. tauto.
Qed.

Lemma ready_ok text path D s : ready text path s -> 1 <= D -> shallow D (s_heap s) -> TermFacts.ok text path false D s.
Proof. intros. apply ok_ready. auto. Qed.
Lemma ready_lax text path s : ready text path s -> TermFacts.ok text path true 1 s.
Proof. intros. apply ok_ready. auto. Qed.
Lemma rgood_big text path D n : 2 * length text + D + 3 <= n ->
  rgood text path false D (recs_at n) (2 * length text + 2).
Proof. intros L. apply rgood_at. right. lia. Qed.
Lemma mu_big text s : false = true \/ mu text s <= 2 * length text + 2.
Proof. right. apply mu_bound. Qed.

(** ** From any state *)
Theorem expression_returns :
  forall text path D n s, ready text path s -> 1 <= D -> shallow D (s_heap s) -> 2 * length text + D + 3 <= n ->
  returns text path (place s) (run (parse_expression (recs_at n)) s) /\
  still_shallow D (run (parse_expression (recs_at n)) s).
Proof.
  intros text path D n s Rd HD Sh L. eapply fin_returns; [exact HD|]. eapply fin_parse_expression.
  - now apply rgood_big.
  - now apply ready_ok.
  - apply mu_big.
Qed.
Theorem type_returns :
  forall text path D n s, ready text path s -> 1 <= D -> shallow D (s_heap s) -> 2 * length text + D + 3 <= n ->
  returns text path (place s) (run (parse_type (recs_at n)) s) /\
  still_shallow D (run (parse_type (recs_at n)) s).
Proof.
  intros text path D n s Rd HD Sh L. eapply fin_returns; [exact HD|]. eapply fin_parse_type.
  - now apply rgood_big.
  - now apply ready_ok.
  - apply mu_big.
Qed.
Theorem statement_returns :
  forall text path D n s, ~ asm_without_end text ->
  ready text path s -> 1 <= D -> shallow D (s_heap s) -> 2 * length text + D + 3 <= n ->
  returns text path (place s) (run (parse_statement (recs_at n)) s) /\
  still_shallow D (run (parse_statement (recs_at n)) s).
Proof.
  intros text path D n s NA Rd HD Sh L. eapply fin_returns; [exact HD|]. eapply fin_parse_statement.
  - now apply rgood_big.
  - now right.
  - now apply ready_ok.
  - apply mu_big.
Qed.
Theorem block_returns :
  forall text path D n s, ~ asm_without_end text -> ~ has_type_section text ->
  ready text path s -> 1 <= D -> shallow D (s_heap s) -> 2 * length text + D + 3 <= n ->
  returns text path (place s) (run (parse_block (recs_at n)) s) /\
  still_shallow D (run (parse_block (recs_at n)) s).
Proof.
  intros text path D n s NA NT Rd HD Sh L. eapply fin_returns; [exact HD|]. eapply fin_parse_block.
  - now apply rgood_big.
  - now right.
  - now right.
  - now apply ready_ok.
  - apply mu_big.
Qed.

(** ** From the start of a text *)
Lemma fresh_sound path : sound (fst (new_program_context heap0 path)).
Proof.
  split; cbn.
  - constructor; [|constructor]. split; [discriminate|]. cbn. split; [lia|exact I].
  - constructor; [|constructor]. constructor.
Qed.
Lemma fresh_shallow path : shallow 1 (fst (new_program_context heap0 path)).
Proof.
  intros d o ty E N. destruct d as [i|i]; unfold deref in E.
  - destruct (nth_error embedded i) as [x|]; [|discriminate]. injection E as <-. injection N as <-.
    apply short_leaf; [reflexivity|]. intros ty' L. inversion L.
  - cbn in E. destruct i; discriminate.
Qed.
Lemma fresh_path path : ctx_path (fst (new_program_context heap0 path)) (snd (new_program_context heap0 path)) = Some path.
Proof. reflexivity. Qed.

Lemma returns_gives {A} text path from (o : outcome A) : ~ open_string text -> ~ unknown_rune text ->
  returns text path from o -> gives o.
Proof.
  intros NO NU [S N]. unfold safe in S. destruct o; [left; eauto|right; eauto| | |]; contradiction.
Qed.

Theorem parsing_returns :
  forall text path n ts e k,
  reads (new_tokenizer text false false) (ts ++ [e]) k -> t_type e = EOF -> Forall (fun t => kw "ASM" t = false) ts ->
  2 * length text + 4 <= n ->
  let h := fst (new_program_context heap0 path) in let c := snd (new_program_context heap0 path) in
  gives (parse_text (parse_expression (recs_at n)) text c h) /\
  gives (parse_text (parse_statement (recs_at n)) text c h) /\
  gives (parse_text (parse_type (recs_at n)) text c h).
Proof.
  intros text path n ts e k RD EE NA L h c.
  destruct (proj1 (read_to_the_end_iff text)) as [NO NU]; [exists ts, e, k; auto|].
  assert (NS : ~ asm_without_end text).
  { intros (k0 & t & k1 & k2 & ts' & e' & k3 & H & _ & _ & G & K & _). rewrite Forall_forall in NA.
    assert (KP : t_type t = ReservedWord) by (rewrite kw_w in K; apply weqb_eq in K; now injection K).
    destruct (tokens_of_the_whole text ts e k t RD EE) as (u & I & A).
    - exists k0, k1. auto.
    - unfold keep. now rewrite KP.
    - rewrite <- (kw_alike "ASM" u t A) in K. apply in_app_or in I as [I|[<-|[]]].
      + rewrite (NA u I) in K. discriminate.
      + unfold kw, p_keyword in K. rewrite EE in K. discriminate. }
  assert (RT : forall A (p : prog A), (forall s, TermFacts.ok text path false 1 s -> exists Q, TermFacts.fin text path false 1 (place s) p s Q) ->
            gives (parse_text p text c h)).
  { intros A p F. eapply returns_gives; [exact NO|exact NU|].
    eapply (text_returns text path 1); [lia|apply fresh_sound|apply fresh_shallow|apply fresh_path|exact F]. }
  pose proof (rgood_big text path 1 n ltac:(lia)) as G.
  split; [|split]; apply RT; intros s O; eexists.
  - eapply fin_parse_expression; [exact G|exact O|apply mu_big].
  - eapply fin_parse_statement; [exact G|now right|exact O|apply mu_big].
  - eapply fin_parse_type; [exact G|exact O|apply mu_big].
Qed.

Lemma text_deeper {A} (p q : prog A) text c h : ple p q -> gives (parse_text p text c h) ->
  parse_text q text c h = parse_text p text c h.
Proof.
  intros L G. assert (B : ple (Bind Next (fun _ => p)) (Bind Next (fun _ => q))).
  { apply ple_bind; [apply ple_refl|]. intros _. exact L. }
  apply ple_deeper; [exact B|]. intros X. unfold parse_text in G. rewrite X in G. destruct G as [(a & s' & E)|(a & s' & E)]; discriminate.
Qed.
Theorem parsing_has_one_end :
  forall text path ts e k,
  reads (new_tokenizer text false false) (ts ++ [e]) k -> t_type e = EOF -> Forall (fun t => kw "ASM" t = false) ts ->
  let h := fst (new_program_context heap0 path) in let c := snd (new_program_context heap0 path) in
  (exists o, gives o /\ forall n, 2 * length text + 4 <= n -> parse_text (parse_expression (recs_at n)) text c h = o) /\
  (exists o, gives o /\ forall n, 2 * length text + 4 <= n -> parse_text (parse_statement (recs_at n)) text c h = o) /\
  (exists o, gives o /\ forall n, 2 * length text + 4 <= n -> parse_text (parse_type (recs_at n)) text c h = o).
Proof.
  intros text path ts e k RD EE NA h c.
  destruct (parsing_returns text path _ ts e k RD EE NA (le_n _)) as (G1 & G2 & G3).
  split; [|split]; (eexists; split; [eassumption|]); intros n L; apply text_deeper; auto;
    pose proof (rle_recs _ _ L); auto using m_parse_expression, m_parse_statement, m_parse_type.
Qed.

Theorem expression_text_returns :
  forall text path D n c h, sound h -> ctx_path h c = Some path -> 1 <= D -> shallow D h -> 2 * length text + D + 3 <= n ->
  returns text path 0 (parse_text (parse_expression (recs_at n)) text c h).
Proof.
  intros text path D n c h SO CP HD Sh L. apply (text_returns text path D); auto. intros s O. eexists.
  eapply fin_parse_expression; [now apply rgood_big|exact O|apply mu_big].
Qed.
Theorem type_text_returns :
  forall text path D n c h, sound h -> ctx_path h c = Some path -> 1 <= D -> shallow D h -> 2 * length text + D + 3 <= n ->
  returns text path 0 (parse_text (parse_type (recs_at n)) text c h).
Proof.
  intros text path D n c h SO CP HD Sh L. apply (text_returns text path D); auto. intros s O. eexists.
  eapply fin_parse_type; [now apply rgood_big|exact O|apply mu_big].
Qed.
Theorem statement_text_returns :
  forall text path D n c h, ~ asm_without_end text ->
  sound h -> ctx_path h c = Some path -> 1 <= D -> shallow D h -> 2 * length text + D + 3 <= n ->
  returns text path 0 (parse_text (parse_statement (recs_at n)) text c h).
Proof.
  intros text path D n c h NA SO CP HD Sh L. apply (text_returns text path D); auto. intros s O. eexists.
  eapply fin_parse_statement; [now apply rgood_big|now right|exact O|apply mu_big].
Qed.

(** ** Nothing but a result, an error, or waiting *)
Theorem methods_are_safe :
  forall text path n s, ready text path s ->
  safe text path (place s) (run (parse_expression (recs_at n)) s) /\
  safe text path (place s) (run (parse_type (recs_at n)) s) /\
  safe text path (place s) (run (parse_statement (recs_at n)) s) /\
  safe text path (place s) (run (parse_block (recs_at n)) s) /\
  (forall req, safe text path (place s) (run (parse_type_section (recs_at n) req) s) /\
               safe text path (place s) (run (parse_const_section (recs_at n) req) s) /\
               safe text path (place s) (run (parse_var_section (recs_at n) req) s)).
Proof.
  intros text path n s Rd. pose proof (ready_lax _ _ _ Rd) as O. pose proof (rgood_lax text path n) as G.
  assert (M : true = true \/ mu text s <= 0) by now left.
  repeat split; eapply fin_safe.
  - eapply fin_parse_expression; eauto.
  - eapply fin_parse_type; eauto.
  - eapply fin_parse_statement; eauto. now left.
  - eapply fin_parse_block; eauto; now left.
  - eapply fin_parse_type_section; eauto. now left.
  - eapply fin_parse_const_section; eauto.
  - eapply fin_parse_var_section; eauto.
Qed.

(** ** ASM without END *)
Lemma asm_loop_stuck fuel : forall s text ts e k3,
  held text (s_tok s) -> reads (s_tok s) (ts ++ [e]) k3 -> t_type e = EOF -> Forall (fun u => kw "END" u = false) ts ->
  run (loop fuel asm_step tt) s = OStuck.
Proof.
  induction fuel as [|fuel IH]; intros s text ts e k3 H Rs E Fa; [reflexivity|].
  assert (KE : forall u, t_type u = EOF -> kw "END" u = false).
  { intros u T. unfold kw, p_keyword. now rewrite T. }
  destruct ts as [|t ts]; inversion Rs as [|? ? k1 ? ? G Rs']; subst.
  - cbn [loop run asm_step]. unfold asm_step, next. cbn [run]. unfold next_token. rewrite G. cbn [run]. rewrite (KE e E). cbn [run].
    pose proof (eof_absorbing _ _ _ _ H G E 1) as AB. cbn in AB.
    eapply (IH _ text [] e k1); auto. eapply held_tok; eauto.
  - cbn [loop run asm_step]. unfold asm_step, next. cbn [run]. unfold next_token. rewrite G. cbn [run].
    inversion Fa as [|? ? Kt Fa']; subst. rewrite Kt. cbn [run].
    eapply (IH _ text ts e k3); auto. eapply held_tok; eauto.
Qed.
Theorem asm_without_end_never_returns :
  forall text n s t k2 ts e k3, parsing text s -> s_cur s = Some t -> kw "ASM" t = true ->
  skips (s_tok s) k2 -> reads k2 (ts ++ [e]) k3 -> t_type e = EOF -> Forall (fun u => kw "END" u = false) ts ->
  (exists r, run (get_node (rs "ASM")) s = OOk r s /\ forall d, r <> Some (d, NLabel)) ->
  run (parse_statement (recs_at n)) s = OStuck.
Proof.
  intros text n s t k2 ts e k3 P C K Sk Rs E Fa (r & Gn & NL). pose proof K as K'.
  rewrite kw_w in K. apply weqb_eq in K. injection K as Kt Kv. change (value t = rs "ASM") in Kv.
  assert (A : run (parse_asm (recs_at n)) s = OStuck).
  { unfold parse_asm, expect, cur. cbn [run]. rewrite C. cbn [run validate]. rewrite K'. cbn [run].
    destruct Sk as [(x & G)|G].
    - unfold next_token. rewrite G. cbn [run].
      rewrite (asm_loop_stuck _ _ text ts e k3); auto. eapply held_tok; [apply P|exact G].
    - unfold next_token. rewrite G. cbn [run].
      rewrite (asm_loop_stuck _ _ text ts e k3); auto. eapply held_nil; [apply P|exact G]. }
  assert (B : run (parse_statement_body (recs_at n)) s = OStuck).
  { unfold parse_statement_body, cur. cbn [run]. rewrite C. cbn [run]. unfold p_type. rewrite Kt, Kv. exact A. }
  assert (Cu : run cur s = OOk t s) by (unfold cur; cbn [run]; now rewrite C).
  unfold parse_statement. rewrite run_bind, Cu. cbv beta iota. rewrite run_bind, Kv, Gn. cbv beta iota.
  destruct r as [[d nd]|]; [|cbn [run]; now rewrite B].
  destruct nd; cbn [run]; try (now rewrite B). now destruct (NL d).
Qed.
Theorem asm_text_never_returns :
  forall text path n t k1 k2 ts e k3,
  get_next (new_tokenizer text false false) = GTok t k1 -> kw "ASM" t = true ->
  skips k1 k2 -> reads k2 (ts ++ [e]) k3 -> t_type e = EOF -> Forall (fun u => kw "END" u = false) ts ->
  let h := fst (new_program_context heap0 path) in let c := snd (new_program_context heap0 path) in
  parse_text (parse_statement (recs_at n)) text c h = OStuck.
Proof.
  intros text path n t k1 k2 ts e k3 G K Sk Rs E Fa h c. unfold parse_text. cbn [run]. unfold next_token. cbn [s_tok].
  rewrite G. set (s := mkPst _ _ _ _ _).
  eapply (asm_without_end_never_returns text n s t k2 ts e k3); auto.
  - assert (X : TermFacts.pre text path true 1 (mkPst (new_tokenizer text false false) None c [] h)).
    { split; [split; [split; [constructor|auto]|discriminate]|]. split; [discriminate|].
      split; [apply fresh_sound|]. split; [reflexivity|now left]. }
    apply next_pre in X. unfold next_token in X. cbn [s_tok] in X. rewrite G in X. apply X.
  - unfold get_node, get. cbn [run s_ctx s_heap s]. fold h.
    assert (Gg : exists r, ctx_get h c (rs "ASM") = r /\ (r = LNil \/ exists i o, r = LFound (Emb i) /\ nth_error embedded i = Some o)).
    { eexists. split; [reflexivity|]. unfold ctx_get, h, c. cbn [ctx_get_fuel new_program_context new_chained new_map fst snd
        nth_error h_ctxs with_ctxs with_maps app length heap0 cx_kind cx_map dget].
      unfold impl_get, embedded_get. cbn [h_maps with_maps with_ctxs heap0 app nth_error length mget].
      destruct (find_index _ 0 embedded) as [i|] eqn:Fi; [right|now left]. exists i.
      apply find_index_lt in Fi. destruct (nth_error embedded i) as [o|] eqn:N; [eauto|apply nth_error_None in N; lia]. }
    destruct Gg as (r & -> & [->|(i & o & -> & N)]); cbn [run].
    + exists None. split; [reflexivity|discriminate].
    + cbn [node_of run s_heap]. unfold node_of. cbn [run deref]. rewrite N. cbn [option_map run].
      eexists. split; [reflexivity|]. intros d. discriminate.
Qed.
End WithUnicode.
