(** Letter case and layout do not change the parse. *)
From Coq Require Import String List NArith Bool Arith Lia.
From Verif Require Import Runes UnicodeFacts Token Tokenizer CursorFacts TokenizerFacts ListUtil LexSpec LexShape LexFacts LexMain Ast Ext
  Heap Classes Prog ParseSpec Parser RunFacts WpFacts Units CaseSpec SimFacts SimHeap SimMain SimParse SimUnits SimProgram.
Import ListNotations.
Local Open Scope list_scope.

Section WithUnicode.
Context {U : Unicode} {UOK : UnicodeOk U}.

(** ** Texts *)
Lemma same_but_case_sym t1 t2 : same_but_case t1 t2 -> same_but_case t2 t1.
Proof.
  intros [T M]. split; [auto|]. rewrite <- T. destruct (t_type t1); auto; destruct M; split; auto.
Qed.
Lemma agree_sym n : forall k1 k2, agree_for n k1 k2 -> agree_for n k2 k1.
Proof.
  induction n as [|n IH]; intros k1 k2 A; [exact I|]. cbn [agree_for] in *.
  destruct (get_next k1), (get_next k2); auto. destruct A. split; auto using same_but_case_sym.
Qed.
Lemma texts_agree_sym a b : texts_agree a b -> texts_agree b a.
Proof. intros T n. apply agree_sym, T. Qed.
Lemma files_agree_sym a b : files_agree a b -> files_agree b a.
Proof. intros F p. specialize (F p). destruct (a p), (b p); auto using texts_agree_sym. Qed.

Lemma eof_agree text1 text2 e1 e2 k1 k2 k1' k2' : held text1 k1 -> held text2 k2 ->
  get_next k1 = GTok e1 k1' -> get_next k2 = GTok e2 k2' -> t_type e1 = EOF -> t_type e2 = EOF -> raw e1 = raw e2 ->
  forall n, agree_for n k1 k2.
Proof.
  intros H1 H2 G1 G2 T1 T2 R n.
  pose proof (eof_absorbing _ _ _ _ H1 G1 T1) as A1. pose proof (eof_absorbing _ _ _ _ H2 G2 T2) as A2.
  assert (E1 : get_next k1' = GTok e1 k1') by (specialize (A1 1); inversion A1 as [|? ? ? ? ? X Y]; subst; inversion Y; now subst).
  assert (E2 : get_next k2' = GTok e2 k2') by (specialize (A2 1); inversion A2 as [|? ? ? ? ? X Y]; subst; inversion Y; now subst).
  assert (S : same_but_case e1 e2) by (split; [congruence|]; now rewrite T1).
  destruct n as [|n]; [exact I|]. cbn [agree_for]. rewrite G1, G2. split; [exact S|].
  induction n as [|n IH]; [exact I|]. cbn [agree_for]. rewrite E1, E2. now split.
Qed.
Lemma reads_agree text1 text2 ts1 : forall ts2 k1 k2 e1 e2 k1' k2', held text1 k1 -> held text2 k2 ->
  reads k1 (ts1 ++ [e1]) k1' -> reads k2 (ts2 ++ [e2]) k2' -> Forall2 same_but_case ts1 ts2 ->
  t_type e1 = EOF -> t_type e2 = EOF -> raw e1 = raw e2 -> forall n, agree_for n k1 k2.
Proof.
  induction ts1 as [|t1 ts1 IH]; intros ts2 k1 k2 e1 e2 k1' k2' H1 H2 R1 R2 F T1 T2 E n; inversion F; subst; cbn [app] in R1, R2.
  - inversion R1; subst. inversion R2; subst. eapply (eof_agree text1 text2 e1 e2); eauto.
  - inversion R1; subst. inversion R2; subst. destruct n as [|n]; [exact I|]. cbn [agree_for].
    match goal with A : get_next k1 = _, B : get_next k2 = _ |- _ => rewrite A, B end. split; auto.
    eapply IH; eauto using held_tok.
Qed.
Lemma reads_last_token text ts : forall k e k', held text k -> reads k (ts ++ [e]) k' -> token_of text e.
Proof.
  induction ts as [|t ts IH]; intros k e k' Hk R; cbn [app] in R; inversion R; subst.
  - exists k. eauto.
  - eapply IH; [|eassumption]. eauto using held_tok.
Qed.

Theorem layouts_of_one_text_agree :
  forall ls1 ls2 text1 text2,
  written ls1 text1 -> written ls2 text2 -> Forall2 same_lexeme ls1 ls2 -> texts_agree text1 text2.
Proof.
  intros ls1 ls2 text1 text2 W1 W2 F.
  destruct (lexical_round_trip _ _ W1) as (ts1 & e1 & k1 & R1 & M1 & T1 & _).
  destruct (lexical_round_trip _ _ W2) as (ts2 & e2 & k2 & R2 & M2 & T2 & _).
  assert (F' : Forall2 same_but_case ts1 ts2).
  { subst ls1 ls2. clear -F. revert ts2 F. induction ts1 as [|t1 ts1 IH]; intros [|t2 ts2] F; inversion F; subst; constructor; auto. }
  assert (RE : forall text ts e k, reads (new_tokenizer text false false) (ts ++ [e]) k -> t_type e = EOF -> raw e = []).
  { intros text ts e k R T. pose proof (reads_last_token text _ _ _ _ (held_new _ _ _) R) as TO.
    destruct (token_of_fits _ _ TO) as (_ & pre & post & _ & _ & _ & [(_ & Rw & _)|(N & _)]); [exact Rw|contradiction]. }
  intro n. eapply (reads_agree text1 text2 ts1 ts2); eauto; try constructor.
  rewrite (RE _ _ _ _ R1 T1), (RE _ _ _ _ R2 T2). reflexivity.
Qed.

(** ** Agreement by computation, for the examples *)
Definition same_but_caseb (t1 t2 : token) : bool :=
  ttype_eqb (t_type t1) (t_type t2) &&
  match t_type t1 with
  | Identifier | ReservedWord =>
      runes_equal (to_lower (raw t1)) (to_lower (raw t2)) && runes_equal (to_upper (raw t1)) (to_upper (raw t2))
  | _ => runes_equal (raw t1) (raw t2)
  end.
Fixpoint agreesb (n : nat) (k1 k2 : tokenizer) : bool :=
  match n with
  | O => false
  | S m =>
      match get_next k1, get_next k2 with
      | GTok t1 k1', GTok t2 k2' => same_but_caseb t1 t2 && (ttype_eqb (t_type t1) EOF || agreesb m k1' k2')
      | _, _ => false
      end
  end.
Lemma same_but_caseb_ok t1 t2 : same_but_caseb t1 t2 = true -> same_but_case t1 t2.
Proof.
  unfold same_but_caseb. intro E. apply andb_true_iff in E as [E1 E2]. apply ttype_eqb_eq in E1. split; [exact E1|].
  destruct (t_type t1); try (apply runes_equal_eq in E2; exact E2).
  all: apply andb_true_iff in E2 as [E2 E3]; apply runes_equal_eq in E2, E3; now split.
Qed.
Lemma agreesb_ok text1 text2 n : forall k1 k2, held text1 k1 -> held text2 k2 -> agreesb n k1 k2 = true -> forall m, agree_for m k1 k2.
Proof.
  induction n as [|n IH]; intros k1 k2 H1 H2 E m; [discriminate E|]. cbn [agreesb] in E.
  destruct (get_next k1) as [t1 k1'| |] eqn:G1, (get_next k2) as [t2 k2'| |] eqn:G2; try discriminate E.
  apply andb_true_iff in E as [E1 E2]. pose proof (same_but_caseb_ok _ _ E1) as S.
  apply orb_true_iff in E2 as [E2|E2].
  - apply ttype_eqb_eq in E2. destruct S as [S1 S2]. rewrite E2 in S2.
    eapply (eof_agree text1 text2 t1 t2); eauto. congruence.
  - destruct m as [|m]; [exact I|]. cbn [agree_for]. rewrite G1, G2. split; [exact S|]. eapply IH; eauto using held_tok.
Qed.
Lemma texts_agree_by_reading n text1 text2 :
  agreesb n (new_tokenizer text1 false false) (new_tokenizer text2 false false) = true -> texts_agree text1 text2.
Proof. intros E m. apply (agreesb_ok text1 text2 n); auto; constructor. Qed.

(** ** Parsing *)
Lemma same_end_of_sims {A} {NA : Norm A} (o1 o2 : outcome A) :
  osim (SA := sim_norm) o1 o2 -> osim (SA := sim_norm) o2 o1 -> same_end o1 o2.
Proof.
  destruct o1, o2; cbn [osim same_end]; try contradiction; auto; intros [A1 A2] _; split; auto; apply A2.
Qed.
Lemma parse_text_case {A} {NA : Norm A} (p : prog A) : psim (SA := sim_norm) p p ->
  forall text1 text2 c h1 h2, texts_agree text1 text2 -> norm h1 = norm h2 ->
  same_end (parse_text p text1 c h1) (parse_text p text2 c h2).
Proof.
  intros P text1 text2 c h1 h2 T E. unfold parse_text.
  assert (Q : psim (SA := sim_norm) (Bind Next (fun _ => p)) (Bind Next (fun _ => p))).
  { eapply psim_bind; [apply psim_next|]. intros. exact P. }
  apply same_end_of_sims; apply Q; apply ssim_texts; auto using texts_agree_sym.
Qed.

Theorem expression_case :
  forall n text1 text2 c h1 h2,
  texts_agree text1 text2 -> norm h1 = norm h2 ->
  same_end (parse_text (parse_expression (recs_at n)) text1 c h1) (parse_text (parse_expression (recs_at n)) text2 c h2).
Proof. intros n. apply parse_text_case. apply parse_expression_sim, recs_at_sim. auto. Qed.
Theorem statement_case :
  forall n text1 text2 c h1 h2,
  texts_agree text1 text2 -> norm h1 = norm h2 ->
  same_end (parse_text (parse_statement (recs_at n)) text1 c h1) (parse_text (parse_statement (recs_at n)) text2 c h2).
Proof. intros n. apply parse_text_case. apply parse_statement_sim, recs_at_sim. auto. Qed.
Theorem type_case :
  forall n text1 text2 c h1 h2,
  texts_agree text1 text2 -> norm h1 = norm h2 ->
  same_end (parse_text (parse_type (recs_at n)) text1 c h1) (parse_text (parse_type (recs_at n)) text2 c h2).
Proof. intros n. apply parse_text_case. apply parse_type_sim, recs_at_sim. auto. Qed.
Theorem block_case :
  forall n text1 text2 c h1 h2,
  texts_agree text1 text2 -> norm h1 = norm h2 ->
  same_end (parse_text (parse_block (recs_at n)) text1 c h1) (parse_text (parse_block (recs_at n)) text2 c h2).
Proof. intros n. apply parse_text_case. apply parse_block_sim, recs_at_sim. auto. Qed.
Theorem type_section_case :
  forall n required text1 text2 c h1 h2,
  texts_agree text1 text2 -> norm h1 = norm h2 ->
  same_end (parse_text (parse_type_section (recs_at n) required) text1 c h1) (parse_text (parse_type_section (recs_at n) required) text2 c h2).
Proof. intros n required. apply parse_text_case. apply parse_type_section_sim, recs_at_sim. auto. Qed.
Theorem unit_case :
  forall n text1 text2 uc c h1 h2,
  texts_agree text1 text2 -> norm h1 = norm h2 ->
  same_end (parse_text (parse_unit (recs_at n) uc) text1 c h1) (parse_text (parse_unit (recs_at n) uc) text2 c h2).
Proof. intros n text1 text2 uc. apply parse_text_case. apply parse_unit_sim, recs_at_sim. auto. Qed.

Theorem program_case :
  forall n files1 files2 sep order topo path,
  files_agree files1 files2 ->
  same_result (parse_program (recs_at n) files1 sep order topo path) (parse_program (recs_at n) files2 sep order topo path).
Proof.
  intros n files1 files2 sep order topo path F.
  pose proof (parse_program_sim _ _ (recs_at_sim n n (le_n n)) _ _ F sep order topo path) as A.
  pose proof (parse_program_sim _ _ (recs_at_sim n n (le_n n)) _ _ (files_agree_sym _ _ F) sep order topo path) as B.
  destruct (parse_program _ files1 _ _ _ _), (parse_program _ files2 _ _ _ _); cbn [rel same_result] in *; try contradiction; auto.
  destruct A as [-> A]. now split.
Qed.
End WithUnicode.
