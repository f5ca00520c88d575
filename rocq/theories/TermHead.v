(** Units and programs end: uses clauses, and texts up to them. *)
From Coq Require Import String List NArith Bool Arith Lia.
From Verif Require Import ListUtil Runes UnicodeFacts Token Tokenizer CursorFacts TokenizerFacts LexSpec LexShape LexFacts LexMain
  Ast Ext Heap Classes MapSpec MapFacts Prog Parser ParseSpec RunFacts WpFacts ExprSpec ExprSound TermSpec TermHeap TermFacts TermExpr
  TermTypes TermClass TermStmt FuelFacts TermMain Units UnitSpec UsesMain TermUnitSpec TermUnit.
Import ListNotations.
Local Open Scope list_scope.

Section WithUnicode.
Context {U : Unicode} {UOK : UnicodeOk U} {unmapped : Unmapped}.
Local Notation node_there := (node_there unmapped).
Local Notation declared := (declared unmapped).
Local Notation sound := (sound_but unmapped).
Variable text : list rune.
Variable path : gostring.
Variable lax : bool.
Variable D : nat.
Local Notation ok := (TermFacts.ok text path lax D).
Local Notation okw := (TermUnit.okw text path lax D).
Local Notation fin := (TermFacts.fin text path lax D).
Local Notation does := (TermUnit.does text path lax D).
Local Notation mu := (TermFacts.mu text).
Local Notation wstep := (TermUnit.wstep lax D).
Local Notation parsing := (ParseSpec.parsing text).

Lemma okw_parsing s : okw s -> parsing s.
Proof. intros [[(P & _) _] _]. exact P. Qed.
Lemma okw_here s : okw s -> wider (s_heap s) (s_heap s) /\ mu s <= mu s.
Proof. intros _. split; [apply wider_refl|apply le_n]. Qed.
Lemma does_also {A} (p : prog A) s (Q1 Q2 : A -> pst -> Prop) :
  does p s Q1 -> (forall a s', run p s = OOk a s' -> Q2 a s') -> does p s (fun a s' => Q1 a s' /\ Q2 a s').
Proof. unfold TermUnit.does. intros H X. destruct (run p s) as [a s'|e s'| | |]; auto. destruct H as (O & W & M & H). auto 6. Qed.

(** ** Tokens *)
Lemma does_Next s (Q : option token -> pst -> Prop) : okw s ->
  (forall c s', okw s' -> s_cur s' = c -> s_heap s' = s_heap s -> s_ctx s' = s_ctx s -> mu s' <= mu s ->
     (forall t, s_cur s = Some t -> t_type t <> EOF -> mu s' < mu s) ->
     (forall t, s_cur s' = Some t -> t_type t <> EOF -> mu s' < mu s) ->
     (forall t ws, s_cur s = Some t -> stands text s' ws -> stands text s (word_of t :: ws)) -> Q c s') ->
  does Next s Q.
Proof.
  intros [O F] H. pose proof (next_pre text path lax D s (proj1 O)) as X. unfold TermUnit.does. cbn [run].
  destruct (next_token s) as [c s'|? ?| | |] eqn:En; auto; try contradiction.
  destruct X as (O' & C & Hh & Hc & PL & M & St).
  assert (Ow : okw s') by (split; [exact O'|now rewrite Hh]).
  split; [exact Ow|]. split; [rewrite Hh; apply wider_refl|]. split; [exact M|].
  destruct (next_stepped text s c s') as [[_ SP] _]; [apply O|exact En|].
  apply H; auto.
  - intros t Ct N. destruct St as [?|[(t1 & t2 & E1 & E2 & _)|[E _]]]; auto; congruence.
  - intros t Ct N. destruct St as [?|[(t1 & t2 & E1 & E2 & E3 & E4)|[_ E]]]; auto; congruence.
Qed.
Lemma does_Cur s (Q : option token -> pst -> Prop) : okw s -> Q (s_cur s) s -> does Cur s Q.
Proof. intros O H. unfold TermUnit.does. cbn [run]. destruct (okw_here s O). auto. Qed.
Lemma does_cur s (Q : token -> pst -> Prop) : okw s -> (forall t, s_cur s = Some t -> Q t s) -> does cur s Q.
Proof.
  intros O H. unfold cur. apply does_bind, does_Cur; [exact O|]. destruct (s_cur s) as [t|] eqn:C.
  - now apply does_ret; [|apply H].
  - unfold TermUnit.does. cbn [run]. left. apply O. exact C.
Qed.
Lemma does_is pred s (Q : bool -> pst -> Prop) : okw s -> (forall t, s_cur s = Some t -> Q (pred t) s) -> does (is pred) s Q.
Proof. intros O H. unfold is. apply does_bind, does_cur; [exact O|]. intros t C. apply does_ret; auto. Qed.
Lemma does_fail {A} s e (Q : A -> pst -> Prop) : error_at text path e -> does (Fail e) s Q.
Proof. intros H. exact H. Qed.
Lemma does_none {A} s (Q : A -> pst -> Prop) : okw s -> s_cur s = None -> does (Fail ENil) s Q.
Proof. intros [[_ N] _] C. apply does_fail. now apply N. Qed.
Lemma does_failat {A} s t (Q : A -> pst -> Prop) : okw s -> s_cur s = Some t -> does (FailAt t) s Q.
Proof.
  intros O C. unfold TermUnit.does. cbn [run]. rewrite (okw_path _ _ _ _ _ O). split; [reflexivity|]. exists t.
  split; [eapply ok_token; [apply O|exact C]|auto].
Qed.
Lemma does_validate c pred s (Q : token -> pst -> Prop) : okw s -> s_cur s = c ->
  (forall t, c = Some t -> pred t = true -> Q t s) -> does (validate c pred) s Q.
Proof.
  intros O C H. destruct c as [t|]; cbn [validate]; [|now apply does_none]. destruct (pred t) eqn:E; [|now apply does_failat].
  apply does_ret; auto.
Qed.
Lemma does_expect pred s (Q : token -> pst -> Prop) : okw s ->
  (forall t, s_cur s = Some t -> pred t = true -> Q t s) -> does (expect pred) s Q.
Proof. intros O H. unfold expect. apply does_bind, does_Cur; [exact O|]. now apply does_validate. Qed.
Lemma does_expect_next pred s (Q : token -> pst -> Prop) : okw s ->
  (forall t s', okw s' -> s_cur s' = Some t -> pred t = true -> s_heap s' = s_heap s -> s_ctx s' = s_ctx s -> mu s' <= mu s ->
     (forall t ws, s_cur s = Some t -> stands text s' ws -> stands text s (word_of t :: ws)) -> Q t s') ->
  does (expect_next pred) s Q.
Proof.
  intros O H. unfold expect_next. apply does_bind, does_Next; [exact O|].
  intros c s' O' C' Hh Hc M _ _ SP. apply does_validate; [exact O'|exact C'|]. intros t -> P. apply H; auto.
Qed.
Lemma does_next s (Q : token -> pst -> Prop) : okw s ->
  (forall t s', okw s' -> s_cur s' = Some t -> s_heap s' = s_heap s -> s_ctx s' = s_ctx s -> mu s' <= mu s ->
     (forall t, s_cur s = Some t -> t_type t <> EOF -> mu s' < mu s) ->
     (forall t ws, s_cur s = Some t -> stands text s' ws -> stands text s (word_of t :: ws)) -> Q t s') ->
  does next s Q.
Proof.
  intros O H. unfold next. apply does_bind, does_Next; [exact O|]. intros c s' O' C' Hh Hc M N1 _ SP. destruct c as [t|].
  - apply does_ret; [exact O'|]. apply H; auto.
  - unfold TermUnit.does. cbn [run]. left. apply O'. exact C'.
Qed.
(** A method known to end *)
Lemma does_method {A} (p : prog A) s (Q0 Q : A -> pst -> Prop) : okw s -> (ok s -> fin (place s) p s Q0) ->
  (forall a s', okw s' -> wider (s_heap s) (s_heap s') -> mu s' <= mu s -> Q0 a s' -> Q a s') -> does p s Q.
Proof. intros O F H. eapply does_fin; [exact O|apply F, O|exact H]. Qed.

(** ** Uses clauses *)
(** An item whose name has a place, under its name and path *)
Definition items (h : heap) (us : list nat) (l : uses_source) : Prop :=
  Forall2 (fun a i => exists o, nth_error (h_uses h) a = Some o /\ i_name (u_ident o) = fst i /\ u_path o = snd i /\
                                i_loc (u_ident o) <> None) us l.
Lemma items_wider h h' us l : wider h h' -> items h us l -> items h' us l.
Proof.
  intros W F. induction F as [|a i us l (o & E & A & B & C) F IH]; constructor; [|exact IH].
  destruct (w_uses _ _ W _ _ E) as (o' & E' & I1 & I2). exists o'. rewrite I1, I2. auto.
Qed.
Lemma say_items h us l : uses_say h us l -> items h us l.
Proof. intros F. induction F as [|a i us l (o & E & A & B & C & X) F IH]; constructor; eauto 8. Qed.
Definition item_there (h : heap) (a : nat) : Prop := exists o, nth_error (h_uses h) a = Some o /\ i_loc (u_ident o) <> None.
Lemma item_there_wider h h' a : wider h h' -> item_there h a -> item_there h' a.
Proof. intros W (o & E & L). destruct (w_uses _ _ W _ _ E) as (o' & E' & I1 & _). exists o'. rewrite I1. auto. Qed.

Lemma not_eof_of t ty : p_type ty t = true -> ty <> EOF -> t_type t <> EOF.
Proof. unfold p_type. intros E N X. apply ttype_eqb_eq in E. congruence. Qed.
Lemma not_eof_kw x t : kw x t = true -> t_type t <> EOF.
Proof. rewrite kw_w, weqb_eq. intros E X. unfold word_of in E. rewrite X in E. discriminate. Qed.
Lemma not_eof_sym x t : sym x t = true -> t_type t <> EOF.
Proof. rewrite sym_w, weqb_eq. intros E X. unfold word_of in E. rewrite X in E. discriminate. Qed.
Lemma does_string_factor t s (Q : gostring -> pst -> Prop) : okw s -> s_cur s = Some t ->
  (forall v s', okw s' -> s_heap s' = s_heap s -> mu s' <= mu s -> Q v s') -> does (parse_string_factor t false) s Q.
Proof.
  intros O C H. unfold parse_string_factor. cbn [orb]. destruct (p_type CharacterString t) eqn:P.
  - apply does_bind, does_Next; [exact O|]. intros c s' O' C' Hh _ M _ _ _. apply does_ret; auto.
  - now apply does_failat.
Qed.
Lemma does_uses_item s : okw s ->
  does parse_uses_item s (fun a s' => mu s' < mu s /\ item_there (s_heap s') a).
Proof.
  intros O. unfold parse_uses_item. apply does_bind, does_expect; [exact O|]. intros t C P.
  pose proof (not_eof_of t Identifier P ltac:(discriminate)) as NE.
  apply does_bind, does_next; [exact O|]. intros t2 s2 O2 C2 H2 _ M2 N2 _. specialize (N2 t C NE).
  apply (does_join _ _ _ _ _ _ _ (fun _ s' => mu s' <= mu s2)).
  - destruct (kw "IN" t2); [|apply does_ret; [exact O2|apply le_n]].
    apply does_bind, does_next; [exact O2|]. intros t3 s3 O3 C3 H3 _ M3 _ _.
    apply does_bind, does_string_factor; [exact O3|exact C3|]. intros v s4 O4 H4 M4. apply does_ret; [exact O4|lia].
  - intros p s3 O3 W3 M3 M3'. apply does_onheap; [exact O3|]. split.
    + apply wstep_new_uses; [now apply okw_sound in O3|now apply okw_fine in O3|reflexivity].
    + split; [change (mu (with_heap _ s3)) with (mu s3); lia|]. eexists. cbn.
      rewrite nth_error_app2, Nat.sub_diag by lia. split; [reflexivity|discriminate].
Qed.
Lemma does_uses_list fuel s : okw s -> lax = true \/ mu s < fuel ->
  does (until_list fuel (sym ";") (Some (sym ",")) parse_uses_item) s (fun us s' => Forall (item_there (s_heap s')) us).
Proof.
  intros O M. unfold until_list, until.
  apply (does_loop _ _ _ _ (fun us s' => Forall (item_there (s_heap s')) us)); [|exact O|constructor|exact M].
  intros us s1 O1 F. unfold until_step, append_with.
  apply (does_join _ _ _ _ _ _ _ (fun r s' => mu s' < mu s1 /\ match r with Some us => Forall (item_there (s_heap s')) us | None => False end)).
  - eapply does_join; [now apply does_uses_item|]. intros a s2 O2 W2 M2 [L2 I2]. apply does_ret; [exact O2|].
    split; [exact L2|]. apply Forall_app. split; [|auto]. eapply Forall_impl; [|exact F]. intros x. now apply item_there_wider.
  - intros [us'|] s2 O2 W2 M2 [L2 F2]; [|destruct F2]. apply does_bind, does_Cur; [exact O2|].
    destruct (s_cur s2) as [t|] eqn:C2; [|now apply does_none]. destruct (sym ";" t); [now apply does_ret|].
    apply does_bind, does_validate; [exact O2|exact C2|]. intros t' [= <-] P.
    apply does_bind, does_Next; [exact O2|]. intros c s3 O3 C3 H3 _ M3 _ _ _. apply does_ret; [exact O3|]. rewrite H3.
    split; [exact F2|]. right. lia.
Qed.
Lemma does_set_uses us : forall s, okw s -> Forall (item_there (s_heap s)) us ->
  does (set_uses us) s (fun _ _ => True).
Proof.
  induction us as [|a us IH]; intros s O F; cbn [set_uses]; [now apply does_ret|].
  inversion F as [|? ? (o & E & L) F']; subst. apply does_bind, does_onheap; [exact O|]. rewrite E.
  pose proof (ctx_set_good lax (s_heap s) (s_ctx s) path [mkDecl (u_ident o) (NUses a)]
    (okw_sound _ _ _ _ _ O) (okw_path _ _ _ _ _ O)) as X.
  assert (Fn : uses_fine (s_heap s)) by apply O.
  assert (W : forall h', good_step lax (s_heap s) h' -> wstep (s_heap s) h') by (intros h'; now apply wstep_good).
  destruct (ctx_set _ _ _) as [h'|h' i|].
  - assert (G : good_step lax (s_heap s) h').
    { apply X. constructor; [|constructor]. split; [exact L|]. split; [|right; discriminate].
      exists o. split; [exact E|]. cbn. unfold uses_fine in Fn. rewrite Forall_forall in Fn. apply Fn. eapply nth_error_In; eauto. }
    split; [now apply W|]. apply IH; [apply okw_heap; auto|]. eapply Forall_impl; [|exact F'].
    intros x. apply item_there_wider. eapply wider_grew. apply G.
  - exact I.
  - destruct X. constructor; [|constructor]. split; [exact L|]. split; [|right; discriminate].
    exists o. split; [exact E|]. cbn. unfold uses_fine in Fn. rewrite Forall_forall in Fn. apply Fn. eapply nth_error_In; eauto.
Qed.

(** The context [c] is one where names can be declared. *)
Definition open_ctx (h : heap) (c : nat) : Prop :=
  exists o a, nth_error (h_ctxs h) c = Some o /\ target (cx_map o) = Some a /\ a < length (h_maps h).
Lemma known_or_not h c : sound h -> open_ctx h c -> forall n, undeclared h c n \/ taken h c n.
Proof.
  intros [_ B] (o & a & E & T & L) n. destruct (nth_error (h_maps h) a) as [m|] eqn:Em; [|apply nth_error_None in Em; lia].
  destruct (mget (to_lower n) m) as [v|] eqn:G.
  - right. rewrite Forall_forall in B. pose proof (B m (nth_error_In _ _ Em)) as F.
    destruct (mget_some _ _ _ _ F G) as (d & -> & x & Ed & Ld & _). exists o, a, m, d. repeat split; auto. exists x. auto.
  - left. exists o, a, m. auto.
Qed.
Lemma uses_clause_said n us s s' : okw s -> run (parse_uses_clause (recs_at n)) s = OOk us s' ->
  exists src, items (s_heap s') us src /\ stands text s (write_uses src) /\
    Forall (fun i => match snd i with Some p => lexeme CharacterString p | None => True end) src /\
    (open_ctx (s_heap s) (s_ctx s) -> distinct_names (map fst src)).
Proof.
  intros O E. pose proof (okw_parsing s O) as P. pose proof (parsing_run _ _ _ _ _ P E) as P'.
  destruct (uses_clause_is_what_was_read text s n us s' P E) as (src & _ & Sy & _ & Lx & (t & Ct & Wt) & St).
  exists src. split; [now apply say_items|]. split; [|split; [exact Lx|]].
  - rewrite <- (app_nil_r (write_uses src)). apply St. rewrite <- Wt. now apply stands_one.
  - intros OC. unfold parse_uses_clause in E.
    apply bind_inv in E as (t0 & s1 & Et & E). apply expect_inv in Et as (-> & C & _).
    apply bind_inv in E as (c & s2 & En & E). apply (next_stepped text) in En as ([SB _] & -> & P2); [|exact P].
    apply bind_inv in E as (us0 & s3 & El & E). unfold until_list in El.
    destruct (uses_loop_inv text _ _ _ _ _ P2 El) as (us1 & l & -> & NE & Su & M & P3 & Ll & Cl & W).
    apply bind_inv in E as (x & s4 & Es & E). apply ret_inv in E as [-> ->]. cbn [app] in *.
    assert (S3 : s_heap s3 = with_uses (h_uses (s_heap s3)) (s_heap s)).
    { destruct SB as (_ & _ & ->). destruct M as (_ & _ & more & ->). reflexivity. }
    assert (C3 : s_ctx s3 = s_ctx s) by (destruct SB as (-> & _ & _), M as (-> & _); reflexivity).
    assert (PC : parser_context s3).
    { destruct (ctx_path_inv _ _ _ (okw_sound _ _ _ _ _ O) (okw_path _ _ _ _ _ O)) as (o & No & _ & K & _).
      exists o. rewrite C3, S3. cbn. auto. }
    assert (V : forall m, undeclared (s_heap s3) (s_ctx s3) m \/ taken (s_heap s3) (s_ctx s3) m).
    { intros m. rewrite C3, S3. destruct (known_or_not _ _ (okw_sound _ _ _ _ _ O) OC m) as [X|(o & a & mm & d & A1 & A2 & A3 & A4 & y & A5 & A6)].
      - left. exact X.
      - right. exists o, a, mm, d. repeat split; auto. exists y. split; [|exact A6]. destruct d; exact A5. }
    destruct (set_uses_any us1 l s3 PC Su) as [(h' & R1 & _ & Dn)|(i & h' & R1 & _)].
    + apply Forall_forall. auto.
    + replace src with l; [exact Dn|]. destruct (set_uses_keeps _ _ _ _ Es) as (_ & _ & _ & K4).
      clear - Sy Su K4. unfold uses_say in *. rewrite K4 in Sy. revert src Sy. induction Su as [|a i us l (o & Eo & N1 & N2 & _) Su IH]; intros src Sy; inversion Sy as [|? i2 ? ? (o2 & Eo2 & N3 & N4 & _) Sy']; subst; [reflexivity|].
      f_equal; [|now apply IH]. destruct i, i2. cbn in *. congruence.
    + congruence.
Qed.

Lemma set_uses_ctxs us : forall s r s', run (set_uses us) s = OOk r s' -> h_ctxs (s_heap s') = h_ctxs (s_heap s).
Proof.
  induction us as [|a us IH]; intros s r s' E; cbn [set_uses] in E.
  - apply ret_inv in E as [_ ->]. auto.
  - apply bind_inv in E as (x & s1 & E1 & E). cbn [run] in E1.
    destruct (nth_error (h_uses (s_heap s)) a) as [o|]; [|discriminate].
    destruct (ctx_set (s_heap s) (s_ctx s) [mkDecl (u_ident o) (NUses a)]) as [h1|h1 i|] eqn:R; try discriminate.
    injection E1 as <- <-. apply IH in E. rewrite E. cbn [s_heap with_heap].
    unfold ctx_set in R. destruct (nth_error (h_ctxs _) _) as [co|]; [|discriminate].
    unfold map_set, alloc_decls in R. cbn [map length seq combine d_ident] in R.
    apply dset_keeps in R as (ms & ->). reflexivity.
Qed.
Lemma uses_clause_ctxs n us s s' : okw s -> run (parse_uses_clause (recs_at n)) s = OOk us s' ->
  h_ctxs (s_heap s') = h_ctxs (s_heap s) /\ s_ctx s' = s_ctx s.
Proof.
  intros O E. pose proof (okw_parsing s O) as P.
  destruct (uses_clause_is_what_was_read text s n us s' P E) as (_ & _ & _ & X & _). split; [|exact X].
  unfold parse_uses_clause in E.
  apply bind_inv in E as (t0 & s1 & Et & E). apply expect_inv in Et as (-> & C & _).
  apply bind_inv in E as (c & s2 & En & E). apply (next_stepped text) in En as ([SB _] & -> & P2); [|exact P].
  apply bind_inv in E as (us0 & s3 & El & E). unfold until_list in El.
  destruct (uses_loop_inv text _ _ _ _ _ P2 El) as (us1 & l & -> & NE & Su & M & P3 & Ll & Cl & W).
  apply bind_inv in E as (x & s4 & Es & E). apply ret_inv in E as [-> ->].
  apply set_uses_ctxs in Es. rewrite Es. destruct SB as (_ & _ & ->). destruct M as (_ & _ & more & ->). reflexivity.
Qed.

(** What a method that reads a uses clause leaves as it was *)
Definition same_ctx (s s' : pst) : Prop := h_ctxs (s_heap s') = h_ctxs (s_heap s) /\ s_ctx s' = s_ctx s.
Definition clause_read (s : pst) (us : list nat) (s' : pst) : Prop :=
  exists src, items (s_heap s') us src /\ stands text s (write_uses src) /\
    Forall (fun i => match snd i with Some p => lexeme CharacterString p | None => True end) src /\
    (open_ctx (s_heap s) (s_ctx s) -> distinct_names (map fst src)).
Lemma does_uses_clause n s : okw s -> (forall s, lax = true \/ mu s < n) ->
  does (parse_uses_clause (recs_at n)) s (fun us s' => clause_read s us s' /\ same_ctx s s').
Proof.
  intros O M. eapply does_conseq; [apply does_also with (Q1 := fun _ _ => True) (Q2 := fun us s' => clause_read s us s' /\ same_ctx s s')|intros a s' _ _ _ [_ X]; exact X].
  - unfold parse_uses_clause. apply does_bind, does_expect; [exact O|]. intros t C P.
    apply does_bind, does_Next; [exact O|]. intros c s2 O2 C2 H2 _ M2 _ _ _.
    eapply does_join; [apply does_uses_list; [exact O2|]|].
    { destruct (M s2); [now left|right]. destruct n; cbn; lia. }
    intros us s3 O3 W3 M3 F3. eapply does_join; [now apply does_set_uses|].
    intros _ s4 O4 _ _ _. now apply does_ret.
  - intros us s' E. split; [now apply (uses_clause_said n)|now apply (uses_clause_ctxs n us)].
Qed.
Lemma does_uses_next n s : okw s -> (forall s, lax = true \/ mu s < n) ->
  does (parse_uses_next (recs_at n)) s (fun us s' => clause_read s us s' /\ same_ctx s s').
Proof.
  intros O M. unfold parse_uses_next. eapply does_join; [now apply does_uses_clause|].
  intros us s1 O1 W1 M1 [CR [SC1 SC2]]. apply does_bind, does_Next; [exact O1|].
  intros c s2 O2 C2 H2 X2 M2 _ _ _. apply does_ret; [exact O2|]. unfold same_ctx, clause_read. rewrite H2, X2. auto.
Qed.

(** ** The beginning of a unit *)
Lemma word_ident_of t : p_type Identifier t = true -> word_of t = wident (i_name (new_ident t)).
Proof. intros P. destruct (word_ident t P) as [W _]. exact W. Qed.
Lemma wstep_change h u f : sound h -> uses_fine h ->
  (forall o, un_ident (f o) = un_ident o) -> (forall o, un_map (f o) = un_map o) ->
  (forall o s, un_intf o = Some s -> exists s', un_intf (f o) = Some s' /\ is_uses s' = is_uses s) ->
  wstep h (put_unit h u f).
Proof. intros S F A B C. apply wstep_put_unit; auto. intros o E. rewrite A, B. auto. Qed.
Lemma put_unit_at h u f o : nth_error (h_units h) u = Some o -> nth_error (h_units (put_unit h u f)) u = Some (f o).
Proof. intros E. unfold put_unit. rewrite E. cbn. eapply nth_set_same; eauto. Qed.
Lemma put_unit_ctxs h u f : h_ctxs (put_unit h u f) = h_ctxs h.
Proof. unfold put_unit. now destruct (nth_error _ _). Qed.
Definition unit_headed (h : heap) (u : nat) (name : gostring) : Prop :=
  exists o, nth_error (h_units h) u = Some o /\ i_loc (un_ident o) <> None /\ i_name (un_ident o) = name.
Lemma headed_wider h h' u name : wider h h' -> unit_headed h u name -> unit_headed h' u name.
Proof. intros W (o & E & L & N). destruct (w_units _ _ W _ _ E) as (o' & E' & I1 & _). exists o'. rewrite I1. auto. Qed.
Lemma does_unit_ident uc s p : okw s -> ctx_path (s_heap s) uc = Some p ->
  does (parse_unit_ident uc) s (fun u s' => same_ctx s s' /\
    exists name o, stands text s [wkey "UNIT"; wident name] /\ nth_error (h_units (s_heap s')) u = Some o /\
      un_intf o = None /\ i_loc (un_ident o) <> None /\ i_name (un_ident o) = name).
Proof.
  intros O CP. unfold parse_unit_ident. apply does_bind, does_expect; [exact O|]. intros t0 C0 K0.
  apply does_bind, does_expect_next; [exact O|]. intros t s1 O1 C1 I1 H1 X1 M1 SP1.
  assert (ST : stands text s [wkey "UNIT"; wident (i_name (new_ident t))]).
  { rewrite kw_w, weqb_eq in K0. rewrite <- K0. apply SP1; [exact C0|]. rewrite <- word_ident_of by exact I1.
    apply stands_one; [now apply okw_parsing|exact C1]. }
  apply does_bind, does_onheap; [exact O1|]. rewrite H1, CP. split; [apply wstep_refl; rewrite <- H1; [now apply okw_sound in O1|apply O1]|].
  rewrite <- H1, with_heap_same. apply does_bind, does_onheap; [exact O1|].
  split; [apply wstep_new_unit; [now apply okw_sound in O1|apply O1]|].
  set (o := mkUnit p (new_ident t) None None None None DNil). set (u := length (h_units (s_heap s1))).
  set (s2 := with_heap _ s1).
  assert (O2 : okw s2). { apply okw_heap; [exact O1|]. apply wstep_new_unit; [now apply okw_sound in O1|apply O1]. }
  assert (E2 : nth_error (h_units (s_heap s2)) u = Some o). { cbn. unfold u. now rewrite nth_error_app2, Nat.sub_diag by lia. }
  assert (SC2 : same_ctx s s2) by (split; cbn; congruence). clearbody s2.
  apply does_bind, does_next; [exact O2|]. intros t1 s3 O3 C3 H3 X3 M3 _ _.
  apply (does_join _ _ _ _ _ _ _ (fun _ s' => same_ctx s s' /\ exists o', nth_error (h_units (s_heap s')) u = Some o' /\ un_intf o' = None /\ un_ident o' = un_ident o)).
  - destruct (p_portability t1).
    + apply does_bind, does_onheap; [exact O3|].
      assert (W3 : wstep (s_heap s3) (put_unit (s_heap s3) u (with_port (Some (value t1))))).
      { apply wstep_change; try reflexivity; [now apply okw_sound in O3|apply O3|]. cbn. eauto. }
      split; [exact W3|]. apply does_next; [now apply okw_heap|]. intros t2 s4 O4 C4 H4 X4 M4 _ _.
      rewrite H4. cbn [s_heap with_heap]. split.
      * destruct SC2 as [SA SB]. split; [rewrite H4; cbn [s_heap with_heap]; rewrite put_unit_ctxs; congruence|rewrite X4; cbn; congruence].
      * eexists. split; [apply put_unit_at; rewrite H3; exact E2|]. auto.
    + apply does_ret; [exact O3|]. unfold same_ctx. rewrite H3, X3. destruct SC2. eauto 6.
  - intros t2 s4 O4 W4 M4 [[SA SB] (o' & E4 & I4 & J4)].
    apply (does_join _ _ _ _ _ _ _ (fun _ s' => s_heap s' = s_heap s4 /\ s_ctx s' = s_ctx s4)).
    + destruct (sym ";" t2); [|now apply does_ret].
      apply does_bind, does_Next; [exact O4|]. intros c s5 O5 C5 H5 X5 M5 _ _ _. now apply does_ret.
    + intros _ s5 O5 _ _ [H5 X5]. apply does_ret; [exact O5|]. unfold same_ctx. rewrite H5, X5. split; [auto|].
      exists (i_name (new_ident t)), o'. rewrite J4. repeat split; auto. cbn. discriminate.
Qed.
(** Its interface section exists, and what it uses *)
Definition interfaced (h : heap) (u : nat) : Prop :=
  exists o sec src, nth_error (h_units h) u = Some o /\ un_intf o = Some sec /\
    items h (or_nil (is_uses sec)) src /\ distinct_names (map fst src).
Lemma interfaced_wider h h' u : wider h h' -> interfaced h u -> interfaced h' u.
Proof.
  intros W (o & sec & src & E & I1 & It & Dn). destruct (w_units _ _ W _ _ E) as (o' & E' & _ & X).
  destruct (X sec I1) as (sec' & I2 & J). exists o', sec', src. rewrite J. repeat split; auto. eapply items_wider; eauto.
Qed.
Lemma does_intf_uses n u s o : okw s -> (forall s, lax = true \/ mu s < n) -> open_ctx (s_heap s) (s_ctx s) ->
  nth_error (h_units (s_heap s)) u = Some o -> un_intf o = None ->
  does (parse_unit_intf_uses (recs_at n) u) s (fun _ s' => same_ctx s s' /\ interfaced (s_heap s') u).
Proof.
  intros O M OC E IN. unfold parse_unit_intf_uses. apply does_bind, does_expect; [exact O|]. intros t0 C0 K0.
  apply does_bind, does_next; [exact O|]. intros t s1 O1 C1 H1 X1 M1 _ _.
  apply (does_join _ _ _ _ _ _ _ (fun l s' => same_ctx s s' /\ (exists o', nth_error (h_units (s_heap s')) u = Some o' /\ un_intf o' = None) /\
    exists src, items (s_heap s') (or_nil l) src /\ distinct_names (map fst src))).
  - destruct (kw "USES" t).
    + eapply does_join; [apply (does_also _ _ _ (fun _ s' => h_units (s_heap s') = h_units (s_heap s1)) (does_uses_next n s1 O1 M))|].
      { intros us s' Er. unfold parse_uses_next in Er. apply bind_inv in Er as (l & s2 & E2 & Er).
        apply bind_inv in Er as (c & s3 & E3 & Er). apply ret_inv in Er as [-> ->].
        apply (next_stepped text) in E3 as ([SB3 _] & _ & _).
        2: exact (parsing_run _ _ _ _ _ (okw_parsing s1 O1) E2).
        destruct SB3 as (_ & _ & <-). unfold parse_uses_clause in E2.
        apply bind_inv in E2 as (t1 & sa & Et & E2). apply expect_inv in Et as (-> & _ & _).
        apply bind_inv in E2 as (c1 & sb & En & E2). apply (next_stepped text) in En as ([SB _] & -> & P2); [|now apply okw_parsing].
        apply bind_inv in E2 as (us0 & sc & El & E2). unfold until_list in El.
        destruct (uses_loop_inv text _ _ _ _ _ P2 El) as (us1 & l1 & -> & _ & _ & Mo & _).
        apply bind_inv in E2 as (y & sd & Es & E2). apply ret_inv in E2 as [-> ->].
        transitivity (h_units (s_heap sc)).
        - clear - Es. revert sc Es. generalize ([] ++ us1). intros l. induction l as [|a l IH]; intros s Es; cbn [set_uses] in Es.
          + now apply ret_inv in Es as [_ ->].
          + apply bind_inv in Es as (x & s1 & E1 & Es). cbn [run] in E1.
            destruct (nth_error (h_uses (s_heap s)) a) as [o|]; [|discriminate].
            destruct (ctx_set (s_heap s) (s_ctx s) [mkDecl (u_ident o) (NUses a)]) as [h1|h1 i|] eqn:R; try discriminate.
            injection E1 as <- <-. apply IH in Es. rewrite Es. cbn [s_heap with_heap].
            unfold ctx_set in R. destruct (nth_error (h_ctxs _) _) as [co|]; [|discriminate].
            unfold map_set, alloc_decls in R. cbn [map length seq combine d_ident] in R.
            apply dset_keeps in R as (ms & ->). reflexivity.
        - destruct SB as (_ & _ & ->). destruct Mo as (_ & _ & more & ->). reflexivity. }
      intros us s2 O2 W2 M2 [[(src & It & _ & _ & Dn) [SA SB]] HU]. apply does_ret; [exact O2|]. split; [split; congruence|]. split.
      * exists o. rewrite HU, H1. auto.
      * exists src. split; [exact It|]. apply Dn. now rewrite H1, X1.
    + apply does_ret; [exact O1|]. unfold same_ctx. rewrite H1, X1. split; [auto|]. split; [eauto|].
      exists []. split; constructor.
  - intros l s2 O2 W2 M2 [[SA SB] [(o' & E2 & I2) (src & It & Dn)]]. apply does_onheap; [exact O2|]. split.
    + apply wstep_put_unit; [now apply okw_sound in O2|apply O2|]. intros x Ex. assert (x = o') by congruence. subst x.
      split; [reflexivity|]. split; [rewrite I2; discriminate|auto].
    + cbn [s_heap with_heap]. split; [split; cbn [s_heap with_heap s_ctx]; [rewrite put_unit_ctxs|]; congruence|].
      eexists _, _, src. split; [apply put_unit_at; exact E2|]. split; [reflexivity|]. split; [|exact Dn].
      clear - It. unfold put_unit. destruct (nth_error _ _); exact It.
Qed.
Lemma does_ident_and_intf_uses n uc s p : okw s -> (forall s, lax = true \/ mu s < n) -> open_ctx (s_heap s) (s_ctx s) ->
  ctx_path (s_heap s) uc = Some p ->
  does (parse_ident_and_intf_uses (recs_at n) uc) s (fun u s' => same_ctx s s' /\
    exists name, stands text s [wkey "UNIT"; wident name] /\ unit_headed (s_heap s') u name /\ interfaced (s_heap s') u).
Proof.
  intros O M OC CP. unfold parse_ident_and_intf_uses.
  eapply does_join; [eapply does_unit_ident; eauto|]. intros u s1 O1 W1 M1 [[SA SB] (name & o & St & Eu & Iu & Lu & Nu)].
  eapply does_join.
  - apply (does_intf_uses n u s1 o); auto. destruct OC as (co & a & Eo & T & L). exists co, a.
    rewrite SA, SB. repeat split; auto. pose proof (w_maps _ _ W1). lia.
  - intros _ s2 O2 W2 M2 [[SA2 SB2] IF]. apply does_ret; [exact O2|]. split; [split; congruence|].
    exists name. split; [exact St|]. split; [|exact IF]. eapply headed_wider; [exact W2|]. exists o. auto.
Qed.
End WithUnicode.
