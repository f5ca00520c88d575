(** The theorems about statements. *)
From Coq Require Import String List NArith Bool Arith Lia.
From Verif Require Import Runes UnicodeFacts Token Tokenizer LexSpec LexShape LexFacts LexMain
  Ast Heap MapSpec MapFacts MapMain Prog ParseSpec Parser RunFacts ExprSpec WpFacts ExprFacts ExprMain
  StmtSpec GrowFacts StmtFacts.
Import ListNotations.
Local Open Scope list_scope.

Section WithUnicode.
Context {U : Unicode} {UOK : UnicodeOk U}.

Notation words := (list (ttype * gostring)).

Theorem statement_round_trip :
  forall text s sp st after rest fuel,
    parser_context s -> good_stmt sp (senv_at (s_heap s) (s_ctx s)) st after -> In after stmt_ends ->
    Forall (vacant (s_heap s) (s_ctx s)) (handler_vars st) -> NoDup (map to_lower (handler_vars st)) ->
    stands text s (write_stmt sp st ++ after :: rest) -> length (write_stmt sp st) <= fuel ->
    exists st' s', run (parse_statement (recs_at fuel)) s = OOk st' s' /\
      bare_stmt st' = bare_stmt st /\ stands text s' (after :: rest) /\
      forall n, ~ In (to_lower n) (map to_lower (handler_vars st)) ->
        ctx_get (s_heap s') (s_ctx s') n = ctx_get (s_heap s) (s_ctx s) n.
Proof.
  intros text s sp st after rest fuel PC G Ia V ND St L.
  assert (Re : ready text (senv_at (s_heap s) (s_ctx s)) (handler_vars st) s (write_stmt sp st ++ after :: rest)).
  { constructor; auto. split; [apply env_le_refl|]. split; [tauto|auto]. }
  pose proof (statement_at text sp _ fuel st after L G Ia s rest Re) as H. apply wp_elim in H as (st' & s' & E & B & St' & Gr).
  exists st', s'. split; [exact E|]. split; [exact B|]. split; [exact St'|]. now apply (gr_get _ _ _ Gr).
Qed.

Theorem statement_text_round_trip :
  forall text ls c post h sp st fuel,
    written ls text -> map word ls = write_stmt sp st ->
    parser_context (mkPst (new_tokenizer text false false) None c post h) ->
    good_stmt sp (senv_at h c) st weof ->
    Forall (vacant h c) (handler_vars st) -> NoDup (map to_lower (handler_vars st)) -> length ls <= fuel ->
    exists st' s',
      run (Bind Next (fun _ => parse_statement (recs_at fuel))) (mkPst (new_tokenizer text false false) None c post h) = OOk st' s' /\
      bare_stmt st' = bare_stmt st /\ stands text s' [weof].
Proof.
  intros text ls c post h sp st fuel W E PC G V ND L. destruct (stands_start text ls c post h W) as (s & N & St & Ec & Ep & Eh).
  rewrite E in St. subst c post h.
  destruct (statement_round_trip text s sp st weof [] fuel) as (st' & s' & R & B & St' & _); auto.
  - do 7 right. now left.
  - rewrite <- E, map_length. exact L.
  - exists st', s'. split; [|auto]. rewrite run_bind. change (run Next ?x) with (next_token x). rewrite N. exact R.
Qed.

(** ** IF and ELSE *)
Lemma write_stmt_none sp b : write_stmt sp (Stmt None b) = write_body sp b.
Proof. reflexivity. Qed.
Definition write_head (sp : spelling) (h : head) : words :=
  match h with
  | HIf e => wkey "IF" :: write_expr e ++ [wkey "THEN"]
  | HElse e s1 => wkey "IF" :: write_expr e ++ wkey "THEN" :: write_stmt sp s1 ++ [wkey "ELSE"]
  | HWhile e => wkey "WHILE" :: write_expr e ++ [wkey "DO"]
  | HFor q e1 e2 down => wkey "FOR" :: write_name q ++ wsym ":=" :: write_expr e1 ++
      wkey (if down then "DOWNTO" else "TO") :: write_expr e2 ++ [wkey "DO"]
  | HWith qs => wkey "WITH" :: commas (map write_name qs) ++ [wkey "DO"]
  end.
Lemma write_under sp h s : write_stmt sp (under h s) = write_head sp h ++ write_stmt sp s.
Proof.
  unfold under. rewrite write_stmt_none. destruct h as [c|c s0|c|q e1 e2 dn|qs]; cbn [write_body write_head]; fold (write_stmt sp);
    rewrite ?app_nil_r; repeat (progress (rewrite <- ?app_assoc; cbn [app])); reflexivity.
Qed.
Lemma write_below sp hs e s1 s2 :
  write_stmt sp (below hs (Stmt None (SIf e s1 (Some s2)))) =
  write_stmt sp (below hs (Stmt None (SIf e s1 None))) ++ wkey "ELSE" :: write_stmt sp s2.
Proof.
  unfold below. induction hs as [|h hs IH]; cbn [fold_right].
  - rewrite !write_stmt_none. cbn [write_body]. fold (write_stmt sp).
    rewrite app_nil_r. repeat (progress (rewrite <- ?app_assoc; cbn [app])). reflexivity.
  - rewrite !write_under, IH, app_assoc. reflexivity.
Qed.

Theorem else_belongs_to_the_nearest_if :
  forall text s sp hs e s1 s2 after rest fuel,
    let inner := below hs (Stmt None (SIf e s1 (Some s2))) in
    let form := write_stmt sp (below hs (Stmt None (SIf e s1 None))) ++ wkey "ELSE" :: write_stmt sp s2 in
    parser_context s -> good_stmt sp (senv_at (s_heap s) (s_ctx s)) inner after -> In after stmt_ends ->
    Forall (vacant (s_heap s) (s_ctx s)) (handler_vars inner) -> NoDup (map to_lower (handler_vars inner)) ->
    stands text s (form ++ after :: rest) -> length form <= fuel ->
    exists st' s', run (parse_statement (recs_at fuel)) s = OOk st' s' /\
      bare_stmt st' = bare_stmt inner /\ stands text s' (after :: rest).
Proof.
  intros text s sp hs e s1 s2 after rest fuel inner form PC G Ia V ND St L. subst form. rewrite <- write_below in St, L.
  destruct (statement_round_trip text s sp inner after rest fuel) as (st' & s' & R & B & St' & _); eauto.
Qed.
End WithUnicode.
