(** The theorems about expressions. *)
From Coq Require Import String List NArith Bool Arith Lia.
From Verif Require Import Runes UnicodeFacts Token Tokenizer LexSpec LexShape LexFacts LexMain
  Ast Heap MapFacts MapMain Prog ParseSpec Parser RunFacts ExprSpec WpFacts ExprFacts ExprSound.
Import ListNotations.
Local Open Scope list_scope.

Section WithUnicode.
Context {U : Unicode} {UOK : UnicodeOk U}.

Notation words := (list (ttype * gostring)).

Theorem expression_round_trip :
  forall text s e after rest fuel,
    parser_context s -> good_expr (env_at (s_heap s) (s_ctx s)) e ->
    stands text s (write_expr e ++ after :: rest) -> ~ In after goes_on ->
    length (write_expr e) <= fuel ->
    exists e' s', run (parse_expression (recs_at fuel)) s = OOk e' s' /\
      bare_expr e' = bare_expr e /\ stands text s' (after :: rest) /\ quiet s s'.
Proof.
  intros text s e after rest fuel PC G St Na L.
  destruct (accepts_at text (env_at (s_heap s) (s_ctx s)) fuel) as [H _].
  specialize (H e L G s (after :: rest) (agrees_here s PC) St).
  assert (Sp : stops expr_on (after :: rest)) by (intros I; apply Na, expr_on_goes_on, I).
  apply H in Sp. apply wp_elim in Sp. exact Sp.
Qed.

Theorem expression_text_round_trip :
  forall text ls c post h e fuel,
    written ls text -> map word ls = write_expr e ->
    parser_context (mkPst (new_tokenizer text false false) None c post h) ->
    good_expr (env_at h c) e -> length ls <= fuel ->
    exists e' s',
      run (Bind Next (fun _ => parse_expression (recs_at fuel))) (mkPst (new_tokenizer text false false) None c post h) = OOk e' s' /\
      bare_expr e' = bare_expr e /\ stands text s' [weof].
Proof.
  intros text ls c post h e fuel W E PC G L. destruct (stands_start text ls c post h W) as (s & N & St & Ec & Ep & Eh).
  rewrite E in St. subst c post h.
  destruct (expression_round_trip text s e weof [] fuel) as (e' & s' & R & B & St' & _); auto.
  - apply win_not. reflexivity.
  - rewrite <- E, map_length. exact L.
  - exists e', s'. split; [|auto]. rewrite run_bind. change (run Next ?x) with (next_token x). rewrite N. exact R.
Qed.

Theorem accepted_expressions :
  forall text s e s' fuel,
    parsing text s -> parser_context s -> run (parse_expression (recs_at fuel)) s = OOk e s' ->
    good_expr (env_at (s_heap s) (s_ctx s)) e /\ quiet s s' /\
    forall rest, stands text s' rest -> stands text s (write_expr e ++ rest).
Proof.
  intros text s e s' fuel P PC E.
  destruct (sound_at text (env_at (s_heap s) (s_ctx s)) fuel) as [H _].
  destruct (H s e s' P (agrees_here s PC) E) as (Q & W & G).
  split; [exact (proj1 (G _ (extends_refl _)))|]. auto.
Qed.

Theorem references_are_visible :
  forall text s e s' fuel,
    parsing text s -> parser_context s -> run (parse_expression (recs_at fuel)) s = OOk e s' ->
    linked_expr (env_at (s_heap s) (s_ctx s)) (h_refs (s_heap s')) e.
Proof.
  intros text s e s' fuel P PC E.
  destruct (sound_at text (env_at (s_heap s) (s_ctx s)) fuel) as [H _].
  destruct (H s e s' P (agrees_here s PC) E) as (Q & W & G).
  exact (proj2 (G _ (extends_refl _))).
Qed.

(** ** Operators *)
Lemma from_left_snoc a l v b : from_left a (l ++ [(v, b)]) = OBin v (from_left a l) b.
Proof. unfold from_left. now rewrite fold_left_app. Qed.

Lemma all_app {A} (P : A -> Prop) l1 l2 : all P (l1 ++ l2) <-> all P l1 /\ all P l2.
Proof. induction l1 as [|a l1 IH]; cbn [all app fold_right]; [tauto|]. unfold all in *. rewrite IH. tauto. Qed.

Lemma str_in_In v l : str_in v l = true <-> In v l.
Proof.
  unfold str_in. rewrite existsb_exists. split.
  - intros (x & I & E). apply runes_equal_eq in E as ->. exact I.
  - intros I. exists v. split; [exact I|now apply runes_equal_eq].
Qed.
Lemma binds_cases v : In v (rel_ops ++ add_ops ++ mul_ops) ->
  (binds v = 2 /\ In v mul_ops) \/ (binds v = 1 /\ In v add_ops) \/ (binds v = 0 /\ In v rel_ops).
Proof.
  unfold binds. intros I. destruct (str_in v mul_ops) eqn:E1; [left; split; [reflexivity|now apply str_in_In]|].
  destruct (str_in v add_ops) eqn:E2; [right; left; split; [reflexivity|now apply str_in_In]|].
  right. right. split; [reflexivity|]. apply in_app_or in I as [I|I]; [exact I|]. apply in_app_or in I as [I|I];
    apply str_in_In in I; congruence.
Qed.

Section Trees.
Context (en : env).
Definition at3 x := exists f, write_factor f = show_op 3 x /\ means_factor f = x /\ good_factor en f.
Definition at2 x := exists t, write_term t = show_op 2 x /\ means_term t = x /\ good_term en t.
Definition at1 x := exists t, write_sexpr t = show_op 1 x /\ means_sexpr t = x /\ good_sexpr en t.
Definition at0 x := exists t, write_expr t = show_op 0 x /\ means_expr t = x /\ good_expr en t.

Lemma up2 x : show_op 2 x = show_op 3 x -> at3 x -> at2 x.
Proof.
  intros E (f & W & M & G). exists (Term f []). cbn [write_term means_term good_term flat_map map all fold_right].
  rewrite app_nil_r, E. auto.
Qed.
Lemma up1 x : show_op 1 x = show_op 2 x -> at2 x -> at1 x.
Proof.
  intros E (f & W & M & G). exists (SExpr None f []). cbn [write_sexpr means_sexpr good_sexpr flat_map map all fold_right app].
  rewrite app_nil_r, E. auto.
Qed.
Lemma up0 x : show_op 0 x = show_op 1 x -> at1 x -> at0 x.
Proof.
  intros E (f & W & M & G). exists (Expr f []). cbn [write_expr means_expr good_expr flat_map map all fold_right app].
  rewrite app_nil_r, E. auto.
Qed.
Lemma down x : show_op 3 x = in_parens true (show_op 0 x) -> at0 x -> at3 x.
Proof. intros E (f & W & M & G). exists (FParen f). cbn [write_factor means_factor good_factor]. rewrite E, W. auto. Qed.

Lemma trees x : good_op en x -> at3 x /\ at2 x /\ at1 x /\ at0 x.
Proof.
  induction x as [v a IHa b IHb|v a IHa|a IHa|f]; cbn [good_op].
  - intros (I & Ga & Gb). specialize (IHa Ga) as (A3 & A2 & A1 & A0). specialize (IHb Gb) as (B3 & B2 & B1 & B0).
    destruct (binds_cases v I) as [[Bv Iv]|[[Bv Iv]|[Bv Iv]]].
    + assert (X2 : at2 (OBin v a b)).
      { destruct A2 as ([fa la] & Wa & Ma & [Gf Gl]), B3 as (fb & Wb & Mb & Gfb).
        exists (Term fa (la ++ [(v, fb)])). cbn [show_op]. rewrite Bv. cbn [Nat.ltb Nat.leb in_parens].
        cbn [write_term means_term good_term]. rewrite flat_map_app, map_app. cbn [flat_map map fst snd]. rewrite from_left_snoc.
        rewrite <- Wa, <- Wb. cbn [means_term write_term] in *. rewrite Ma, Mb, app_nil_r, <- !app_assoc. split; [reflexivity|]. split; [reflexivity|].
        split; [exact Gf|]. apply all_app. split; [exact Gl|]. cbn [all fold_right fst snd]. auto. }
      assert (X0 : at0 (OBin v a b)) by (apply up0; [|apply up1; [|exact X2]]; cbn [show_op]; rewrite Bv; reflexivity).
      split; [apply down; [cbn [show_op]; rewrite Bv; reflexivity|exact X0]|]. split; [exact X2|]. split; [|exact X0].
      apply up1; [|exact X2]. cbn [show_op]. rewrite Bv. reflexivity.
    + assert (X1 : at1 (OBin v a b)).
      { destruct A1 as ([ua fa la] & Wa & Ma & (Gu & Gf & Gl)), B2 as (fb & Wb & Mb & Gfb).
        exists (SExpr ua fa (la ++ [(v, fb)])). cbn [show_op]. rewrite Bv. cbn [Nat.ltb Nat.leb in_parens].
        cbn [write_sexpr means_sexpr good_sexpr]. rewrite flat_map_app, map_app. cbn [flat_map map fst snd]. rewrite from_left_snoc.
        rewrite <- Wa, <- Wb. cbn [means_sexpr write_sexpr] in *. rewrite Ma, Mb, app_nil_r, <- !app_assoc. split; [reflexivity|]. split; [reflexivity|].
        split; [exact Gu|]. split; [exact Gf|]. apply all_app. split; [exact Gl|]. cbn [all fold_right fst snd]. auto. }
      assert (X0 : at0 (OBin v a b)) by (apply up0; [|exact X1]; cbn [show_op]; rewrite Bv; reflexivity).
      assert (X3 : at3 (OBin v a b)) by (apply down; [cbn [show_op]; rewrite Bv; reflexivity|exact X0]).
      split; [exact X3|]. split; [|auto]. apply up2; [|exact X3]. cbn [show_op]. rewrite Bv. reflexivity.
    + assert (X0 : at0 (OBin v a b)).
      { destruct A0 as ([fa la] & Wa & Ma & (Gf & Gl)), B1 as (fb & Wb & Mb & Gfb).
        exists (Expr fa (la ++ [(v, fb)])). cbn [show_op]. rewrite Bv. cbn [Nat.ltb Nat.leb in_parens].
        cbn [write_expr means_expr good_expr]. rewrite flat_map_app, map_app. cbn [flat_map map fst snd]. rewrite from_left_snoc.
        rewrite <- Wa, <- Wb. cbn [means_expr write_expr] in *. rewrite Ma, Mb, app_nil_r, <- !app_assoc. split; [reflexivity|]. split; [reflexivity|].
        split; [exact Gf|]. apply all_app. split; [exact Gl|]. cbn [all fold_right fst snd]. auto. }
      assert (X3 : at3 (OBin v a b)) by (apply down; [cbn [show_op]; rewrite Bv; reflexivity|exact X0]).
      assert (X2 : at2 (OBin v a b)) by (apply up2; [|exact X3]; cbn [show_op]; rewrite Bv; reflexivity).
      split; [exact X3|]. split; [exact X2|]. split; [|exact X0]. apply up1; [|exact X2]. cbn [show_op]. rewrite Bv. reflexivity.
  - intros (I & Ga). specialize (IHa Ga) as (A3 & A2 & A1 & A0).
    assert (X1 : at1 (OSign v a)).
    { destruct A2 as (t & W & M & G). exists (SExpr (Some v) t []). cbn [show_op Nat.ltb Nat.leb in_parens].
      cbn [write_sexpr means_sexpr good_sexpr flat_map map all fold_right app]. rewrite app_nil_r, W, M. auto. }
    assert (X0 : at0 (OSign v a)) by (apply up0; [reflexivity|exact X1]).
    assert (X3 : at3 (OSign v a)) by (apply down; [reflexivity|exact X0]).
    split; [exact X3|]. split; [|auto]. apply up2; [reflexivity|exact X3].
  - intros Ga. specialize (IHa Ga) as (A3 & A2 & A1 & A0).
    assert (X3 : at3 (ONot a)).
    { destruct A3 as (f & W & M & G). exists (FNot f). cbn [write_factor means_factor good_factor show_op]. rewrite W, M. auto. }
    assert (X2 : at2 (ONot a)) by (apply up2; [reflexivity|exact X3]).
    assert (X1 : at1 (ONot a)) by (apply up1; [reflexivity|exact X2]).
    split; [exact X3|]. split; [exact X2|]. split; [exact X1|]. apply up0; [reflexivity|exact X1].
  - intros [G N].
    assert (X3 : at3 (OAtom f)) by (exists f; split; [reflexivity|]; split; [destruct f; contradiction || reflexivity|exact G]).
    assert (X2 : at2 (OAtom f)) by (apply up2; [reflexivity|exact X3]).
    assert (X1 : at1 (OAtom f)) by (apply up1; [reflexivity|exact X2]).
    split; [exact X3|]. split; [exact X2|]. split; [exact X1|]. apply up0; [reflexivity|exact X1].
Qed.
End Trees.

Lemma bare_from_left a l : bare_op (from_left a l) = from_left (bare_op a) (map (fun r => (fst r, bare_op (snd r))) l).
Proof.
  unfold from_left. revert a. induction l as [|r l IH]; intros a; [reflexivity|]. cbn [fold_left map fst snd]. now rewrite IH.
Qed.
(** By induction on the size of what is written. *)
Lemma means_bare n :
  (forall e, length (write_expr e) <= n -> means_expr (bare_expr e) = bare_op (means_expr e)) /\
  (forall e, length (write_sexpr e) <= n -> means_sexpr (bare_sexpr e) = bare_op (means_sexpr e)) /\
  (forall e, length (write_term e) <= n -> means_term (bare_term e) = bare_op (means_term e)) /\
  (forall e, length (write_factor e) <= n -> means_factor (bare_factor e) = bare_op (means_factor e)).
Proof.
  assert (Step : forall n,
    (forall e, length (write_factor e) <= n -> means_factor (bare_factor e) = bare_op (means_factor e)) ->
    (forall e, length (write_expr e) <= n -> means_expr (bare_expr e) = bare_op (means_expr e)) /\
    (forall e, length (write_sexpr e) <= n -> means_sexpr (bare_sexpr e) = bare_op (means_sexpr e)) /\
    (forall e, length (write_term e) <= n -> means_term (bare_term e) = bare_op (means_term e))).
  { clear n. intros n Hf.
    assert (Ht : forall e, length (write_term e) <= n -> means_term (bare_term e) = bare_op (means_term e)).
    { intros [f l]. cbn [write_term means_term bare_term]. rewrite app_length. intros L. rewrite bare_from_left, (Hf f) by lia. f_equal.
      rewrite !map_map. apply map_ext_in. intros r I. cbn [fst snd]. pose proof (ops_length write_factor r l I). rewrite Hf by lia. reflexivity. }
    assert (Hs : forall e, length (write_sexpr e) <= n -> means_sexpr (bare_sexpr e) = bare_op (means_sexpr e)).
    { intros [u f l]. cbn [write_sexpr means_sexpr bare_sexpr]. rewrite !app_length. intros L. rewrite bare_from_left. f_equal.
      - destruct u; cbn [bare_op]; rewrite (Ht f) by lia; reflexivity.
      - rewrite !map_map. apply map_ext_in. intros r I. cbn [fst snd]. pose proof (ops_length write_term r l I). rewrite Ht by lia. reflexivity. }
    split; [|auto]. intros [f l]. cbn [write_expr means_expr bare_expr]. rewrite !app_length. intros L.
    rewrite bare_from_left, (Hs f) by lia. f_equal.
    rewrite !map_map. apply map_ext_in. intros r I. cbn [fst snd]. pose proof (ops_length write_sexpr r l I). rewrite Hs by lia. reflexivity. }
  assert (Hf : forall e, length (write_factor e) <= n -> means_factor (bare_factor e) = bare_op (means_factor e)).
  { induction n as [|n IH].
    - intros e L. pose proof (write_factor_nonempty e). destruct (write_factor e); [congruence|cbn in L; lia].
    - destruct (Step n IH) as (He & _ & _). intros [d args|d|v|v|v| |e|f|es|ti e]; try reflexivity; cbn [write_factor bare_factor means_factor bare_op].
      + cbn [length]. rewrite app_length. cbn [length]. intros L. apply He. lia.
      + cbn [length]. intros L. rewrite IH by lia. reflexivity. }
  destruct (Step n Hf) as (A & B & C). auto.
Qed.

Theorem operators_bind_as_documented :
  forall text s x after rest fuel,
    parser_context s -> good_op (env_at (s_heap s) (s_ctx s)) x ->
    stands text s (show_op 0 x ++ after :: rest) -> ~ In after goes_on ->
    length (show_op 0 x) <= fuel ->
    exists e s', run (parse_expression (recs_at fuel)) s = OOk e s' /\
      bare_op (means_expr e) = bare_op x /\ stands text s' (after :: rest).
Proof.
  intros text s x after rest fuel PC G St Na L. destruct (trees _ x G) as (_ & _ & _ & e & W & M & Ge).
  rewrite <- W in St, L. destruct (expression_round_trip text s e after rest fuel PC Ge St Na L) as (e' & s' & R & B & St' & _).
  exists e', s'. split; [exact R|]. split; [|exact St'].
  rewrite <- (proj1 (means_bare (length (write_expr e'))) e') by lia. rewrite B.
  rewrite (proj1 (means_bare (length (write_expr e))) e) by lia. now rewrite M.
Qed.

Theorem one_tree_per_source_form :
  forall text s e1 e2 after rest,
    parser_context s -> good_expr (env_at (s_heap s) (s_ctx s)) e1 -> good_expr (env_at (s_heap s) (s_ctx s)) e2 ->
    stands text s (write_expr e1 ++ after :: rest) -> ~ In after goes_on ->
    write_expr e1 = write_expr e2 -> bare_expr e1 = bare_expr e2.
Proof.
  intros text s e1 e2 after rest PC G1 G2 St Na E.
  destruct (expression_round_trip text s e1 after rest (length (write_expr e1)) PC G1 St Na (Nat.le_refl _)) as (e & s' & R & B & _).
  rewrite E in St. assert (L : length (write_expr e2) <= length (write_expr e1)) by (rewrite E; lia).
  destruct (expression_round_trip text s e2 after rest _ PC G2 St Na L) as (e' & s2 & R' & B' & _).
  congruence.
Qed.
End WithUnicode.
