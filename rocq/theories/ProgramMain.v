(** Programs and units end: the theorems. *)
From Coq Require Import String List NArith Bool Arith Lia Permutation.
From Verif Require Import ListUtil Runes UnicodeFacts Token Tokenizer CursorFacts TokenizerFacts LexSpec LexShape LexFacts LexMain
  Ast Ext Heap Classes MapSpec MapFacts Prog Parser ParseSpec RunFacts WpFacts ExprSpec ExprSound CaseSpec TermSpec TermHeap TermFacts TermExpr
  TermTypes TermClass TermStmt FuelFacts TermMain Units UnitSpec ExtSpec ExtMain SortMain UsesMain TermUnitSpec TermUnit TermHead TermBody
  TermProgram.
Import ListNotations.
Local Open Scope list_scope.

Section WithUnicode.
Context {U : Unicode} {UOK : UnicodeOk U}.
#[local] Existing Instance nobody.

(** ** What a text begins with *)
Lemma reads_meet k ts1 k1 : reads k ts1 k1 -> forall ts2 k2, reads k ts2 k2 ->
  exists x y, ts1 ++ x = ts2 ++ y.
Proof.
  induction 1 as [k|k t k1 ts k2 G R IH]; intros ts2 k3 R2.
  - exists ts2, []. now rewrite app_nil_r.
  - inversion R2 as [|? t' k1' ts' ? G' R']; subst.
    + exists [], (t :: ts). now rewrite app_nil_r.
    + rewrite G in G'. injection G' as <- <-. destruct (IH _ _ R') as (x & y & E). exists x, y. cbn. now rewrite E.
Qed.
Lemma begins_meet text ws1 ws2 : begins text ws1 -> begins text ws2 -> exists x y, ws1 ++ x = ws2 ++ y.
Proof.
  intros (ts1 & k1 & R1 & <-) (ts2 & k2 & R2 & <-). destruct (reads_meet _ _ _ R1 _ _ R2) as (x & y & E).
  exists (map word_of x), (map word_of y). rewrite <- !map_app. now rewrite E.
Qed.
Lemma unit_called_once text n1 n2 : unit_called text n1 -> unit_called text n2 -> n1 = n2.
Proof. intros A B. destruct (begins_meet _ _ _ A B) as (x & y & E). cbn in E. unfold wident in E. congruence. Qed.
Lemma items_once l1 : forall l2 x y,
  commas (map write_uses_item l1) ++ wsym ";" :: x = commas (map write_uses_item l2) ++ wsym ";" :: y -> l1 = l2.
Proof.
  assert (H : forall (i1 i2 : gostring * option gostring) v1 v2 x y,
    write_uses_item i1 ++ (SpecialSymbol, v1) :: x = write_uses_item i2 ++ (SpecialSymbol, v2) :: y -> i1 = i2 /\ v1 = v2 /\ x = y).
  { intros [n1 [p1|]] [n2 [p2|]] v1 v2 x y; unfold write_uses_item, wident, wkey; cbn [fst snd app]; intros E; inversion E; subst; auto. }
  assert (NE : forall i y, write_uses_item i ++ y <> [] /\ forall v x, (SpecialSymbol, v) :: x <> write_uses_item i ++ y).
  { intros [nm p] y. unfold write_uses_item, wident. cbn [fst snd app]. split; [discriminate|]. intros v x E. inversion E. }
  assert (CC : forall i (l : uses_source), commas (map write_uses_item (i :: l)) =
    match l with [] => write_uses_item i | _ => write_uses_item i ++ wsym "," :: commas (map write_uses_item l) end) by (intros i [|? ?]; reflexivity).
  induction l1 as [|i1 l1 IH]; intros [|i2 l2] x y E.
  - reflexivity.
  - exfalso. rewrite CC in E. destruct l2; [|rewrite <- app_assoc in E]; now apply NE in E.
  - exfalso. rewrite CC in E. symmetry in E. destruct l1; [|rewrite <- app_assoc in E]; now apply NE in E.
  - rewrite !CC in E. unfold wsym in E. destruct l1 as [|j1 l1], l2 as [|j2 l2]; rewrite <- ?app_assoc in E; cbn [app] in E;
      apply H in E as (-> & V & E); try discriminate; [reflexivity|]. f_equal. eapply IH. exact E.
Qed.
Theorem program_uses_once :
  forall main l1 l2, program_uses main l1 -> program_uses main l2 -> l1 = l2.
Proof.
  intros main l1 l2 (n1 & B1) (n2 & B2). destruct (begins_meet _ _ _ B1 B2) as (x & y & E). cbn [app] in E.
  unfold write_uses in E. rewrite <- ?app_comm_cons, <- !app_assoc in E. cbn [app] in E. injection E as _ E. now apply items_once in E.
Qed.

Section Program.
Variable lax : bool.
Variable D n : nat.
Local Notation R := (recs_at n).
Local Notation okw text path := (TermUnit.okw text path lax D).
Local Notation does text path := (TermUnit.does text path lax D).
Local Notation wstep := (TermUnit.wstep lax D).
Local Notation hok := (TermProgram.hok lax D).
Local Notation room := (TermProgram.room lax D n).
Context (files : gostring -> option (list rune)) (sep : rune)
  (order : string_set -> list gostring)
  (topo : list gostring -> list (gostring * gostring) -> option (list gostring)).

Lemma does_program_head text path pc s p : room text -> okw text path s -> ctx_path (s_heap s) pc = Some p ->
  does text path (parse_program_head R pc) s (fun r s' =>
    (exists po, nth_error (h_progs (s_heap s')) (fst r) = Some po /\ i_loc (pr_ident po) <> None) /\
    match snd r with
    | Some us => exists src name, items (s_heap s') us src /\
                   stands text s ([wkey "PROGRAM"; wident name; wsym ";"] ++ write_uses src)
    | None => exists name w, w <> wkey "USES" /\ stands text s [wkey "PROGRAM"; wident name; wsym ";"; w]
    end).
Proof.
  intros RM O CP. unfold parse_program_head. apply does_bind, does_expect; [exact O|]. intros t0 C0 K0.
  apply does_bind, does_expect_next; [exact O|]. intros t s1 O1 C1 I1 H1 X1 _ SP1.
  apply does_bind, does_onheap; [exact O1|]. rewrite H1, CP, <- H1.
  set (po := mkProg p (new_ident t) None DNil). set (pa := length (h_progs (s_heap s1))).
  assert (W2 : wstep (s_heap s1) (with_progs (h_progs (s_heap s1) ++ [po]) (s_heap s1))).
  { apply wstep_new_prog; [now apply okw_sound in O1|apply O1]. }
  split; [exact W2|]. set (s2 := with_heap _ s1).
  assert (O2 : okw text path s2) by (apply okw_heap; [exact O1|exact W2]).
  assert (E2 : nth_error (h_progs (s_heap s2)) pa = Some po). { cbn. unfold pa. now rewrite nth_error_app2, Nat.sub_diag by lia. }
  assert (ST2 : forall ws, stands text s2 ws -> stands text s1 ws) by (intros ws X; exact X).
  assert (C2 : s_cur s2 = Some t) by exact C1. clearbody s2.
  apply does_bind, does_expect_next; [exact O2|]. intros t3 s3 O3 C3 K3 H3 _ _ SP3.
  apply does_bind, does_Next; [exact O3|]. intros c s4 O4 C4 H4 _ _ _ _ SP4.
  assert (E4 : nth_error (h_progs (s_heap s4)) pa = Some po) by (rewrite H4, H3; exact E2).
  assert (ST : forall ws, stands text s4 ws -> stands text s ([wkey "PROGRAM"; wident (i_name (new_ident t)); wsym ";"] ++ ws)).
  { intros ws X. rewrite kw_w, weqb_eq in K0. rewrite sym_w, weqb_eq in K3. cbn [app]. rewrite <- K0.
    apply SP1; [exact C0|]. rewrite <- word_ident_of by exact I1. apply ST2, SP3; [exact C2|].
    rewrite <- K3. now apply SP4. }
  apply does_bind, does_is; [exact O4|]. intros t4 Ct4.
  apply (does_join _ _ _ _ _ _ _ (fun l s' => (exists po, nth_error (h_progs (s_heap s')) pa = Some po /\ i_loc (pr_ident po) <> None) /\
    match l with Some us => exists src, items (s_heap s') us src /\ stands text s4 (write_uses src) | None => word_of t4 <> wkey "USES" end)).
  - destruct (kw "USES" t4) eqn:K4.
    + eapply does_join; [apply does_uses_next; [exact O4|intros x; now apply (room_fuel lax D n)]|].
      intros us s5 O5 W5 _ [(src & It & St & _) _]. apply does_ret; [exact O5|].
      destruct (w_progs _ _ W5 _ _ E4) as (po' & E5 & I5 & _). split; [exists po'; split; [exact E5|rewrite I5; discriminate]|].
      exists src. auto.
    + apply does_ret; [exact O4|]. split; [exists po; split; [exact E4|discriminate]|].
      intros E. apply weqb_eq in E. rewrite <- kw_w in E. congruence.
  - intros l s5 O5 _ _ [HP HL]. apply does_ret; [exact O5|]. cbn [fst snd]. split; [exact HP|]. destruct l as [us|].
    2:{ exists (i_name (new_ident t)), (word_of t4). split; [exact HL|]. apply (ST [word_of t4]). exists t4, []. split; [reflexivity|].
        split; [exact Ct4|]. destruct (okw_parsing _ _ _ _ _ O4) as [(Hd & _) _]. split; [exact Hd|]. exists [], (s_tok s4). split; [constructor|reflexivity]. }
    destruct HL as (src & It & St). exists src, (i_name (new_ident t)). split; [exact It|]. now apply ST.
Qed.
Lemma does_program_rest text path pa l s : room text -> okw text path s ->
  (exists po, nth_error (h_progs (s_heap s)) pa = Some po) ->
  does text path (parse_program_rest R pa l) s (fun _ _ => True).
Proof.
  intros RM O (po & Ep). unfold parse_program_rest.
  eapply does_join; [eapply does_method; [exact O|intros X; eapply fin_parse_block; [now apply (room_rgood lax D n)|now apply (room_asm lax D n)|now apply (room_types lax D n)|exact X|]|intros a s' _ _ _ Y; exact Y]|].
  { destruct (room_mu lax text s); [now left|right; lia]. }
  intros b s1 O1 W1 _ _. destruct (w_progs _ _ W1 _ _ Ep) as (po' & Ep' & _).
  apply does_bind, does_onheap; [exact O1|]. rewrite Ep'.
  assert (W2 : wstep (s_heap s1) (with_progs (set_nth pa (mkProg (pr_path po') (pr_ident po') (Some (mkProgramBlock l b)) (pr_map po'))
                (h_progs (s_heap s1))) (s_heap s1))).
  { apply wstep_put_prog; [now apply okw_sound in O1|apply O1|]. intros o Eo. assert (o = po') by congruence. subst o. auto. }
  split; [exact W2|]. assert (O2 := okw_heap _ _ _ _ _ _ O1 W2). apply does_bind, does_expect; [exact O2|].
  intros t C K. now apply does_ret.
Qed.

Lemma program_ends path main : iterates order -> toposort_ok topo -> files path = Some main ->
  ~ clash files sep main -> (forall text, program_text files sep main text -> room text) ->
  lax = true \/ D = 1 ->
  program_safe files sep main (parse_program R files sep order topo path) /\
  (parse_program R files sep order topo path = RStuck -> lax = true) /\
  (forall e h, parse_program R files sep order topo path = RErr e h -> error_in_files files sep main path e) /\
  (forall x h l, parse_program R files sep order topo path = ROk x h -> program_uses main l -> named_units files sep l).
Proof.
  intros IO TO Ef NC RM HD. set (NU := forall l, program_uses main l -> named_units files sep l).
  enough (X : match parse_program R files sep order topo path with
    | ROk _ h => hok h /\ NU | RErr e _ => error_in_files files sep main path e
    | RStuck => lax = true
    | r => program_safe files sep main r end).
  { destruct (parse_program R files sep order topo path) as [x h|e h| | |]; try (split; [exact X|repeat split; discriminate]).
    - split; [apply X|]. split; [discriminate|]. split; [discriminate|]. intros x0 h' l _. apply X.
    - split; [exact I|]. split; [discriminate|]. split; [now intros e0 h' [= <- <-]|discriminate].
    - split; [exact I|]. split; [auto|]. split; discriminate. }
  unfold parse_program. rewrite Ef. cbn [new_program_context new_chained new_map heap0].
  set (h0 := with_ctxs _ _). set (pc := length _). assert (RMm : room main) by (apply RM; now left).
  assert (K0 : hok h0).
  { split; [exact (fresh_sound path)|]. split; [constructor|]. destruct HD as [?| ->]; [now left|right]. split; [lia|exact (fresh_shallow path)]. }
  assert (CP0 : ctx_path h0 pc = Some path) by exact (fresh_path path).
  assert (PC0 : prog_ctx h0 pc []) by (eexists; split; reflexivity).
  pose proof (text_starts lax D main path pc h0 K0 CP0) as X.
  destruct (run Next _) as [x s|e s| | |]; try contradiction; [|exists main; split; [now left|exact X]].
  destruct X as (O & Hh & Hc & B). unfold parse_program_at.
  assert (CPs : ctx_path (s_heap s) pc = Some path) by (rewrite Hh; exact CP0).
  pose proof (does_program_head main path pc s path RMm O CPs) as X. unfold TermUnit.does in X.
  destruct (run (parse_program_head R pc) s) as [[pa l] s1|e s1| | |]; cbn [on_parser rbind]; auto.
  2:{ now left. }
  2:{ left. exists main. split; [now left|now apply crashes_rune]. }
  2:{ exists main. split; [now left|exact X]. }
  destruct X as (O1 & W1 & _ & (po & Epo & Lpo) & HL). cbn [fst snd] in Epo, HL.
  pose proof (proj1 (okw_iff _ _ _ _ _) O1) as (Rd1 & K1 & Cp1).
  assert (PC1 : prog_ctx (s_heap s1) pc []) by (eapply prog_ctx_wider; [exact W1|]; now rewrite Hh).
  assert (CP1 : ctx_path (s_heap s1) pc = Some path) by (eapply ctx_path_spread; [|apply spread_wider; exact W1|exact CPs]; rewrite Hh; exact K0).
  assert (REST : forall h2, hok h2 -> spread (s_heap s1) h2 -> NU ->
    match rbind (rbind (on_parser (run (parse_program_rest R pa l) (with_heap h2 s1))) (fun r _ => ROk (fst r) (s_heap (snd r))))
                (fun pa h1 => ROk (pa, pc) h1) with
    | ROk _ h => hok h /\ NU | RErr e _ => error_in_files files sep main path e | RStuck => lax = true
    | r => program_safe files sep main r end).
  { intros h2 K2 SP2 HN. assert (O2 : okw main path (with_heap h2 s1)).
    { apply okw_iff. split; [exact Rd1|]. split; [exact K2|]. cbn [s_heap s_ctx with_heap]. exact (ctx_path_spread lax D _ _ _ _ K1 SP2 Cp1). }
    pose proof (does_program_rest main path pa l (with_heap h2 s1) RMm O2) as X. cbn [s_heap with_heap] in X.
    destruct (sp_progs _ _ SP2 _ _ Epo) as (po2 & Ep2 & _). specialize (X (ex_intro _ _ Ep2)). unfold TermUnit.does in X.
    destruct (run _ _) as [y s3|e s3| | |]; cbn [on_parser rbind fst snd]; auto.
    - destruct X as (O3 & _). apply okw_iff in O3 as (_ & K3 & _). auto.
    - now left.
    - left. exists main. split; [now left|now apply crashes_rune].
    - exists main. split; [now left|exact X]. }
  destruct l as [us|].
  2:{ cbn [rbind]. apply REST; [exact K1|apply spread_refl|]. intros l (nm & Bl). destruct HL as (name & w & N & St). apply B in St.
      destruct (begins_meet _ _ _ St Bl) as (x1 & y1 & E). cbn [app] in E. injection E as _ E _. now destruct N. }
  destruct HL as (src & name & It & St). apply B in St.
  assert (PU : program_uses main src) by (exists name; exact St).
  assert (UT : forall p text, In p (unit_files sep src) -> files p = Some text -> unit_text files sep main text) by (intros p text I E; exists src, p; auto).
  pose proof (load_units_ends lax D n files sep order topo pc us src pa po path (s_heap s1) IO TO K1 PC1 It Epo Lpo CP1
    (fun p text I E => RM text (or_intror (UT p text I E)))) as X.
  assert (OE : one_each files (unit_files sep src)).
  { intros i j p q t1 t2 n1 n2 E1 E2 F1 F2 U1 U2 S. destruct (Nat.eq_dec i j) as [?|N]; [assumption|].
    destruct NC. exists src, i, j, p, q, t1, t2, n1, n2. repeat (split; [assumption|]). assumption. }
  specialize (X OE). destruct (load_units R files sep order topo pc pa us (s_heap s1)) as [y h2|e h2| | |]; cbn [rbind]; auto.
  - destruct X as [[K2 SP2] HN]. apply REST; [exact K2|exact SP2|]. intros l Pl. now rewrite (program_uses_once _ _ _ Pl PU).
  - destruct X as [->|(p & text & I1 & E1 & X)]; [now left|]. right. exists src, p, text. auto.
  - destruct X as (p & text & I1 & E1 & [X|(nm & X1 & X2)]).
    + left. exists text. split; [right; now apply (UT p)|exact X].
    + right. exists text, nm. split; [now apply (UT p)|]. auto.
  - destruct X as (p & text & I1 & E1 & X). exists text. split; [right; now apply (UT p)|exact X].
Qed.
End Program.

Theorem program_is_safe :
  forall files sep order topo n path main, iterates order -> toposort_ok topo ->
  files path = Some main -> ~ clash files sep main ->
  program_safe files sep main (parse_program (recs_at n) files sep order topo path).
Proof.
  intros files sep order topo n path main IO TO Ef NC.
  apply (program_ends true 1); auto. intros text _. now left.
Qed.
Theorem files_are_units_of_the_names_used :
  forall files sep order topo n path main l x h, iterates order -> toposort_ok topo ->
  files path = Some main -> ~ clash files sep main -> program_uses main l ->
  parse_program (recs_at n) files sep order topo path = ROk x h -> named_units files sep l.
Proof.
  intros files sep order topo n path main l x h IO TO Ef NC PU E.
  destruct (program_ends true 1 n files sep order topo path main) as (_ & _ & _ & X); auto; [intros text _; now left|].
  eapply X; eauto.
Qed.
Theorem program_errors_are_in_its_files :
  forall files sep order topo n path main e h, iterates order -> toposort_ok topo ->
  files path = Some main -> ~ clash files sep main ->
  parse_program (recs_at n) files sep order topo path = RErr e h -> error_in_files files sep main path e.
Proof.
  intros files sep order topo n path main e h IO TO Ef NC E.
  apply (program_ends true 1 n files sep order topo path main) with (h := h); auto. intros text _. now left.
Qed.
Theorem program_returns :
  forall files sep order topo n path main, iterates order -> toposort_ok topo ->
  files path = Some main -> ~ clash files sep main ->
  (forall text, program_text files sep main text ->
     ~ asm_without_end text /\ ~ has_type_section text /\ 2 * length text + 5 <= n) ->
  program_safe files sep main (parse_program (recs_at n) files sep order topo path) /\
  parse_program (recs_at n) files sep order topo path <> RStuck.
Proof.
  intros files sep order topo n path main IO TO Ef NC H.
  destruct (program_ends false 1 n files sep order topo path main) as (A & B & _); auto.
  - intros text P. destruct (H text P) as (H1 & H2 & H3). right. repeat split; auto. lia.
  - split; [exact A|]. intros E. specialize (B E). discriminate.
Qed.
(** A unit by itself, in a new unit context *)
Lemma fresh_unit program path : let h := fst (lone_unit_context program path) in
  sound h /\ uses_fine h /\ shallow 1 h /\ ctx_path h (snd (lone_unit_context program path)) = Some path /\
  open_ctx h (snd (lone_unit_context program path)).
Proof.
  split; [|split; [constructor|split; [|split; [reflexivity|]]]].
  - split; cbn.
    + repeat constructor; try discriminate; cbn; auto with arith.
    + repeat constructor.
  - apply (shallow_keep 1 (fst (new_program_context heap0 program))); [reflexivity|reflexivity|apply fresh_shallow].
  - eexists _, 1. split; [reflexivity|]. split; [reflexivity|]. cbn. lia.
Qed.
Theorem lone_unit_returns :
  forall text program path n, let h := fst (lone_unit_context program path) in let c := snd (lone_unit_context program path) in
  ~ asm_without_end text -> ~ has_type_section text -> 2 * length text + 5 <= n ->
  match parse_text (parse_unit (recs_at n) c) text c h with
  | OOk _ s' => sound (s_heap s')
  | OErr e _ => error_at text path e
  | OPanic => unknown_rune text
  | OHang => open_string text
  | OStuck => False
  end.
Proof.
  intros text program path n h c NA NT L. unfold parse_text. destruct (fresh_unit program path) as (S & F & Sh & CP & OC). fold h c in S, F, Sh, CP, OC.
  assert (RM : room false 1 n text) by (right; repeat split; auto; lia).
  pose proof (text_does false 1 text path (parse_unit (recs_at n) c) c h (fun _ _ => True)) as X.
  assert (K : hok false 1 h) by (split; [exact S|]; split; [exact F|]; right; auto).
  specialize (X K CP).
  assert (Y : forall s, TermUnit.okw text path false 1 s -> s_heap s = h -> s_ctx s = c -> (forall ws, stands text s ws -> begins text ws) ->
     TermUnit.does text path false 1 (parse_unit (recs_at n) c) s (fun _ _ => True)).
  { intros s O Hh Hc _. eapply (does_parse_unit text path false 1 n (2 * length text + 3)).
    - apply room_rgood. exact RM.
    - apply room_mu.
    - exact (room_asm false 1 n text RM).
    - exact (room_types false 1 n text RM).
    - exact O.
    - now rewrite Hh, Hc.
    - rewrite Hh. exact CP. }
  specialize (X Y). destruct (run _ _) as [a s|e s| | |]; auto; [|discriminate]. destruct X as (O & _). exact (okw_sound _ _ _ _ _ O).
Qed.
Theorem lone_unit_is_safe :
  forall text program path n, let h := fst (lone_unit_context program path) in let c := snd (lone_unit_context program path) in
  match parse_text (parse_unit (recs_at n) c) text c h with
  | OOk _ s' => sound (s_heap s')
  | OErr e _ => error_at text path e
  | OPanic => unknown_rune text
  | OHang => open_string text
  | OStuck => True
  end.
Proof.
  intros text program path n h c. unfold parse_text. destruct (fresh_unit program path) as (S & F & Sh & CP & OC). fold h c in S, F, Sh, CP, OC.
  assert (RM : room true 1 n text) by now left.
  pose proof (text_does true 1 text path (parse_unit (recs_at n) c) c h (fun _ _ => True)) as X.
  assert (K : hok true 1 h) by (split; [exact S|]; split; [exact F|]; now left).
  specialize (X K CP).
  assert (Y : forall s, TermUnit.okw text path true 1 s -> s_heap s = h -> s_ctx s = c -> (forall ws, stands text s ws -> begins text ws) ->
     TermUnit.does text path true 1 (parse_unit (recs_at n) c) s (fun _ _ => True)).
  { intros s O Hh Hc _. eapply (does_parse_unit text path true 1 n (2 * length text + 3)).
    - apply room_rgood. exact RM.
    - apply room_mu.
    - exact (room_asm true 1 n text RM).
    - exact (room_types true 1 n text RM).
    - exact O.
    - now rewrite Hh, Hc.
    - rewrite Hh. exact CP. }
  specialize (X Y). destruct (run _ _) as [a s|e s| | |]; auto. destruct X as (O & _). exact (okw_sound _ _ _ _ _ O).
Qed.

Theorem program_has_one_end :
  forall files sep order topo n path main, iterates order -> toposort_ok topo ->
  files path = Some main -> ~ clash files sep main ->
  (forall text, program_text files sep main text ->
     ~ asm_without_end text /\ ~ has_type_section text /\ 2 * length text + 5 <= n) ->
  exists r, r <> RStuck /\ forall m, n <= m -> parse_program (recs_at m) files sep order topo path = r.
Proof.
  intros files sep order topo n path main IO TO Ef NC H.
  destruct (program_returns files sep order topo n path main IO TO Ef NC H) as [_ N].
  exists (parse_program (recs_at n) files sep order topo path). split; [exact N|]. intros m L.
  now apply program_depth_does_not_matter.
Qed.

(** What is a text of the program, and whether names clash, when its uses clause is known *)
Lemma program_texts files sep main l text : program_uses main l -> program_text files sep main text ->
  text = main \/ exists p, In p (unit_files sep l) /\ files p = Some text.
Proof.
  intros PU [?|(l' & p & PU' & I & E)]; [now left|]. rewrite <- (program_uses_once _ _ _ PU PU') in I. right. eauto.
Qed.
Lemma no_clash files sep main l (names : list gostring) : program_uses main l ->
  Forall2 (fun p n => exists t, files p = Some t /\ unit_called t n) (unit_files sep l) names -> NoDup (map to_lower names) ->
  ~ clash files sep main.
Proof.
  intros PU F ND (l' & i & j & p & q & t1 & t2 & n1 & n2 & PU' & N & Ei & Ej & F1 & F2 & U1 & U2 & S).
  rewrite <- (program_uses_once _ _ _ PU PU') in Ei, Ej. clear PU PU' l'.
  assert (X : forall i p t n, nth_error (unit_files sep l) i = Some p -> files p = Some t -> unit_called t n -> nth_error names i = Some n).
  { clear - F. induction F as [|p nm ps ns (t & Ft & Ut) F IH]; intros [|i] p0 t0 n0 E Fp Up; cbn in *; try discriminate.
    - injection E as <-. f_equal. rewrite Ft in Fp. injection Fp as <-. eapply unit_called_once; eauto.
    - eapply IH; eauto. }
  apply N. rewrite NoDup_nth_error in ND. apply ND.
  - rewrite map_length. eapply nth_lt. eapply X; eauto.
  - rewrite (map_nth_error to_lower _ _ (X _ _ _ _ Ei F1 U1)), (map_nth_error to_lower _ _ (X _ _ _ _ Ej F2 U2)). f_equal. exact S.
Qed.
End WithUnicode.
