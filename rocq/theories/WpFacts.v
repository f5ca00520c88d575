(** Rules for proving that a method of the parser succeeds, and what tokens a predicate
    accepts in terms of words. *)
From Coq Require Import String List NArith Bool Arith Lia.
From Verif Require Import Runes UnicodeFacts Token Tokenizer LexSpec LexShape LexFacts LexMain
  Ast Heap MapFacts MapMain Prog ParseSpec Parser RunFacts ExprSpec.
Import ListNotations.
Local Open Scope list_scope.

Section WithUnicode.
Context {U : Unicode} {UOK : UnicodeOk U}.

(** ** Words *)
Definition weqb (a b : ttype * gostring) : bool := ttype_eqb (fst a) (fst b) && runes_equal (snd a) (snd b).
Lemma ttype_eqb_eq a b : ttype_eqb a b = true <-> a = b.
Proof. destruct a, b; cbn; split; congruence. Qed.
Lemma weqb_eq a b : weqb a b = true <-> a = b.
Proof.
  destruct a as [t1 w1], b as [t2 w2]. unfold weqb. cbn. rewrite andb_true_iff, ttype_eqb_eq, runes_equal_eq.
  split; [intros [-> ->]; auto|intros [= -> ->]; auto].
Qed.
Lemma weqb_neq a b : weqb a b = false <-> a <> b.
Proof. rewrite <- weqb_eq. destruct (weqb a b); split; congruence. Qed.
Lemma win_iff w l : existsb (weqb w) l = true <-> In w l.
Proof.
  rewrite existsb_exists. split.
  - intros (x & I & E). apply weqb_eq in E as ->. exact I.
  - intros I. exists w. split; [exact I|]. now apply weqb_eq.
Qed.
Lemma win_not w l : existsb (weqb w) l = false <-> ~ In w l.
Proof. rewrite <- win_iff. destruct (existsb _ l); split; congruence. Qed.

Lemma raw_value t : t_type t <> ReservedWord -> value t = raw t.
Proof. unfold value. destruct (t_type t); congruence. Qed.
Lemma type_w ty t : p_type ty t = ttype_eqb (fst (word_of t)) ty.
Proof. reflexivity. Qed.
Lemma value_w t : value t = snd (word_of t).
Proof. reflexivity. Qed.
Lemma sym_w x t : sym x t = weqb (word_of t) (wsym x).
Proof.
  unfold sym, p_symbol, weqb, wsym, word_of, value. cbn [fst snd]. destruct (t_type t); reflexivity.
Qed.
Lemma kw_w x t : kw x t = weqb (word_of t) (wkey x).
Proof. reflexivity. Qed.
Lemma symtext_w x t : p_has_text SpecialSymbol (rs x) t = weqb (word_of t) (wsym x).
Proof. reflexivity. Qed.
Lemma eqb_bool a b : (a = true <-> b = true) -> a = b.
Proof. destruct a, b; intuition congruence. Qed.
Ltac ops := intros; rewrite ?sym_w, ?kw_w, ?symtext_w; cbn -[weqb sym kw p_has_text];
  rewrite ?sym_w, ?kw_w, ?symtext_w;
  repeat match goal with |- context [weqb ?a ?b] => destruct (weqb a b); [reflexivity|] end; reflexivity.
Lemma rel_w t : rel_op t = existsb (weqb (word_of t)) (map wop rel_ops).
Proof. unfold rel_op, rel_ops. ops. Qed.
Lemma add_w t : add_op t = existsb (weqb (word_of t)) (map wop add_ops).
Proof. unfold add_op, add_ops. ops. Qed.
Lemma mul_w t : mul_op t = existsb (weqb (word_of t)) (map wop mul_ops).
Proof. unfold mul_op, mul_ops. ops. Qed.
Lemma unary_w t : unary_op t = existsb (weqb (word_of t)) (map wop signs).
Proof. unfold unary_op, signs. ops. Qed.

(** [ws] begins with a word not in [l]. *)
Definition stops (l : list (ttype * gostring)) (ws : list (ttype * gostring)) : Prop :=
  match ws with [] => False | T :: _ => ~ In T l end.
Definition stopsb (l ws : list (ttype * gostring)) : bool :=
  match ws with [] => false | T :: _ => negb (existsb (weqb T) l) end.
Lemma stops_by l ws : stopsb l ws = true -> stops l ws.
Proof.
  destruct ws as [|T ws]; cbn; [discriminate|]. intros E. apply win_not. now destruct (existsb _ l).
Qed.
Lemma stops_incl l l' ws : incl l l' -> stops l' ws -> stops l ws.
Proof. destruct ws; cbn; auto. Qed.
Lemma stops_app l l' ws : stops (l ++ l') ws -> stops l ws /\ stops l' ws.
Proof. intros St. split; eapply stops_incl; eauto; intros x I; apply in_or_app; auto. Qed.
Lemma stops_cons l ws : stops l ws -> exists T ws', ws = T :: ws'.
Proof. destruct ws; cbn; [contradiction|eauto]. Qed.
Lemma stops_nonempty l ws : stops l ws -> ws <> [].
Proof. now destruct ws. Qed.

(** ** Success *)
Definition wp {A} (p : prog A) (s : pst) (Q : A -> pst -> Prop) : Prop :=
  exists a s', run p s = OOk a s' /\ Q a s'.
Lemma wp_conseq {A} (p : prog A) s (Q Q' : A -> pst -> Prop) :
  wp p s Q -> (forall a s', Q a s' -> Q' a s') -> wp p s Q'.
Proof. intros (a & s' & R & H) I. exists a, s'. auto. Qed.
Lemma wp_ret {A} (a : A) s (Q : A -> pst -> Prop) : Q a s -> wp (Ret a) s Q.
Proof. intros H. exists a, s. auto. Qed.
Lemma wp_bind {A B} (p : prog A) (k : A -> prog B) s (Q : B -> pst -> Prop) :
  wp p s (fun a s' => wp (k a) s' Q) -> wp (Bind p k) s Q.
Proof. intros (a & s1 & R & b & s2 & R2 & H). exists b, s2. cbn [run]. rewrite R. auto. Qed.
Lemma wp_run {A} (p : prog A) s a s' (Q : A -> pst -> Prop) : run p s = OOk a s' -> Q a s' -> wp p s Q.
Proof. intros R H. exists a, s'. auto. Qed.
Lemma wp_elim {A} (p : prog A) s (Q : A -> pst -> Prop) : wp p s Q -> exists a s', run p s = OOk a s' /\ Q a s'.
Proof. auto. Qed.
Lemma wp_cur_opt s t (Q : option token -> pst -> Prop) : s_cur s = Some t -> Q (Some t) s -> wp Cur s Q.
Proof. intros C H. exists (Some t), s. cbn [run]. rewrite C. auto. Qed.
Lemma wp_cur s t (Q : token -> pst -> Prop) : s_cur s = Some t -> Q t s -> wp cur s Q.
Proof. intros C H. apply wp_bind. eapply wp_cur_opt; [exact C|]. now apply wp_ret. Qed.
Lemma wp_is s t pred (Q : bool -> pst -> Prop) : s_cur s = Some t -> Q (pred t) s -> wp (is pred) s Q.
Proof. intros C H. apply wp_bind. eapply wp_cur; [exact C|]. now apply wp_ret. Qed.
Lemma wp_expect s t pred (Q : token -> pst -> Prop) : s_cur s = Some t -> pred t = true -> Q t s -> wp (expect pred) s Q.
Proof.
  intros C P H. apply wp_bind. eapply wp_cur_opt; [exact C|]. cbn [validate]. rewrite P. now apply wp_ret.
Qed.
Lemma wp_next text s w ws (Q : option token -> pst -> Prop) : stands text s (w :: ws) -> ws <> [] ->
  (forall t s', s_cur s' = Some t -> Some (word_of t) = hd_error ws -> stands text s' ws ->
     same_but_place s s' -> Q (Some t) s') -> wp Next s Q.
Proof.
  intros St NE H. destruct ws as [|w2 ws]; [congruence|].
  destruct (stands_next _ _ _ _ _ St) as (t & s' & N & L & C & St' & SB).
  exists (Some t), s'. cbn [run]. split; [exact N|]. apply H; auto. cbn. now rewrite L.
Qed.
Lemma wp_expect_next text s w w2 ws pred (Q : token -> pst -> Prop) : stands text s (w :: w2 :: ws) ->
  (forall t, word_of t = w2 -> pred t = true) ->
  (forall t s', s_cur s' = Some t -> word_of t = w2 -> stands text s' (w2 :: ws) ->
     same_but_place s s' -> Q t s') -> wp (expect_next pred) s Q.
Proof.
  intros St P H. apply wp_bind. eapply wp_next; [exact St|discriminate|]. intros t s' C Hd St' SB.
  cbn in Hd. injection Hd as Hd. cbn [validate]. rewrite (P _ Hd). apply wp_ret. auto.
Qed.

(** ** Effects *)
Lemma quiet_place s s' : same_but_place s s' -> quiet s s'.
Proof.
  intros (C & P & H). unfold quiet. rewrite <- C, <- P, <- H.
  repeat split; exists []; now rewrite app_nil_r.
Qed.
Lemma quiet_refl s : quiet s s.
Proof. apply quiet_place, same_but_place_refl. Qed.
Lemma quiet_trans s1 s2 s3 : quiet s1 s2 -> quiet s2 s3 -> quiet s1 s3.
Proof.
  intros (A1 & A2 & A3 & A4 & A5 & A6 & (r1 & A7) & (c1 & A8) & A9 & A10)
         (B1 & B2 & B3 & B4 & B5 & B6 & (r2 & B7) & (c2 & B8) & B9 & B10).
  unfold quiet. repeat split; try congruence.
  - exists (r1 ++ r2). now rewrite B7, A7, app_assoc.
  - exists (c1 ++ c2). now rewrite B8, A8, app_assoc.
Qed.

Definition same_env (a b : env) : Prop :=
  (forall n, visible a n = visible b n) /\ (forall n, plain_name a n <-> plain_name b n) /\
  (forall n, type_name a n <-> type_name b n) /\ (forall n m d d', member a n m d d' <-> member b n m d d').
Definition agrees (en : env) (s : pst) : Prop := parser_context s /\ same_env en (env_at (s_heap s) (s_ctx s)).

Lemma ctx_get_plain h c o name : nth_error (h_ctxs h) c = Some o -> (forall p, cx_kind o <> KStack p) ->
  ctx_get h c name = dget h (cx_map o) name.
Proof.
  intros E K. unfold ctx_get. cbn [ctx_get_fuel]. rewrite E. destruct (cx_kind o) eqn:Ko; try reflexivity.
  now destruct (K parent).
Qed.
Lemma quiet_get s s' name : parser_context s -> quiet s s' ->
  ctx_get (s_heap s') (s_ctx s') name = ctx_get (s_heap s) (s_ctx s) name.
Proof.
  intros (o & E & K) (A1 & _ & _ & _ & _ & _ & _ & _ & A9 & _).
  rewrite (ctx_get_plain _ _ o _ E K). rewrite E in A9. rewrite (ctx_get_plain _ _ o _ A9 K).
  now apply dget_same_maps.
Qed.
Lemma quiet_deref s s' d : quiet s s' -> deref (s_heap s') d = deref (s_heap s) d.
Proof. intros (_ & A2 & _). destruct d; cbn; [reflexivity|]. now rewrite A2. Qed.
Lemma quiet_context s s' : parser_context s -> quiet s s' -> parser_context s'.
Proof. intros (o & E & K) Q. exists o. split; [|exact K]. destruct Q as (_ & _ & _ & _ & _ & _ & _ & _ & A9 & _). now rewrite A9. Qed.
Lemma quiet_resolves s s' n d x : parser_context s -> quiet s s' ->
  resolves (s_heap s') (s_ctx s') n d x <-> resolves (s_heap s) (s_ctx s) n d x.
Proof. intros PC Q. unfold resolves. now rewrite (quiet_get _ _ _ PC Q), (quiet_deref _ _ _ Q). Qed.
Lemma quiet_namespace s s' n m : quiet s s' -> namespace_map (s_heap s') n m <-> namespace_map (s_heap s) n m.
Proof.
  intros (_ & _ & _ & A4 & A5 & A6 & _). destruct n; cbn; try tauto; rewrite ?A4, ?A5, ?A6; tauto.
Qed.
Lemma quiet_env s s' : parser_context s -> quiet s s' ->
  same_env (env_at (s_heap s) (s_ctx s)) (env_at (s_heap s') (s_ctx s')).
Proof.
  intros PC Q. split; [|split; [|split]]; cbn [visible plain_name type_name member env_at].
  - intros n. now rewrite (quiet_get _ _ _ PC Q).
  - intros n. rewrite (quiet_get _ _ _ PC Q). split; (intros [E|(d & x & E & N)]; [auto|right; exists d, x]).
    + split; [|exact N]. now apply (quiet_resolves s s').
    + split; [|exact N]. now apply (quiet_resolves s s').
  - intros n. split; intros (d & t & E); exists d, t; now apply (quiet_resolves s s').
  - intros n m d d'. split; intros (x & mp & E & N & G); exists x, mp; (split; [now apply (quiet_resolves s s')|]);
      (split; [now apply (quiet_namespace s s')|]).
    + rewrite <- G. apply dget_same_maps, Q.
    + rewrite <- G. symmetry. apply dget_same_maps, Q.
Qed.
Lemma same_env_trans a b c : same_env a b -> same_env b c -> same_env a c.
Proof.
  intros (A1 & A2 & A3 & A4) (B1 & B2 & B3 & B4). split; [|split; [|split]].
  - intros n. now rewrite A1.
  - intros n. now rewrite A2.
  - intros n. now rewrite A3.
  - intros n m d d'. now rewrite A4.
Qed.
Lemma same_env_refl a : same_env a a.
Proof. unfold same_env. intuition. Qed.
Lemma quiet_agrees en s s' : agrees en s -> quiet s s' -> agrees en s'.
Proof.
  intros [PC E] Q. split; [eapply quiet_context; eauto|]. eapply same_env_trans; [exact E|]. now apply quiet_env.
Qed.
Lemma agrees_here s : parser_context s -> agrees (env_at (s_heap s) (s_ctx s)) s.
Proof. split; [assumption|apply same_env_refl]. Qed.

Lemma with_same_heap s : with_heap (s_heap s) s = s.
Proof. now destruct s. Qed.

(** ** Attempts *)
Lemma wp_attempt {B} (p : prog (option B)) s t h c (Q : option B -> pst -> Prop) :
  s_cur s = Some t -> ctx_clone (s_heap s) (s_ctx s) = Some (h, c) ->
  wp p (with_heap h s) (fun r s' => match r with
    | Some b => Q (Some b) s'
    | None => Q None (mkPst (tokenizer_clone (s_tok s)) (Some t) c (s_post s') (s_heap s'))
    end) -> wp (Attempt p) s Q.
Proof.
  intros C K (r & s' & E & H). unfold wp. cbn [run]. rewrite C, K, E. destruct r as [b|]; eauto.
  rewrite token_clone_eq. eauto.
Qed.
Lemma parser_context_clone s : parser_context s ->
  exists o, nth_error (h_ctxs (s_heap s)) (s_ctx s) = Some o /\
    ctx_clone (s_heap s) (s_ctx s) = Some (with_ctxs (h_ctxs (s_heap s) ++ [o]) (s_heap s), length (h_ctxs (s_heap s))).
Proof.
  intros (o & E & K). exists o. split; [exact E|]. unfold ctx_clone. rewrite E.
  destruct (cx_kind o) eqn:Ko; try reflexivity. now destruct (K parent).
Qed.
Lemma quiet_clone s o : nth_error (h_ctxs (s_heap s)) (s_ctx s) = Some o ->
  quiet s (with_heap (with_ctxs (h_ctxs (s_heap s) ++ [o]) (s_heap s)) s).
Proof.
  intros E. unfold quiet. cbn. repeat split; [exists []; now rewrite app_nil_r|eauto|].
  apply nth_error_app1. apply nth_error_Some. congruence.
Qed.
(** Going back after what changed nothing. *)
Lemma quiet_back s s' o : nth_error (h_ctxs (s_heap s)) (s_ctx s) = Some o ->
  quiet (with_heap (with_ctxs (h_ctxs (s_heap s) ++ [o]) (s_heap s)) s) s' ->
  quiet s (mkPst (tokenizer_clone (s_tok s)) (s_cur s) (length (h_ctxs (s_heap s))) (s_post s') (s_heap s')).
Proof.
  intros E (A1 & A2 & A3 & A4 & A5 & A6 & A7 & (more & A8) & A9 & A10). cbn in *.
  unfold quiet. cbn. repeat split; auto; rewrite A8.
  - exists ([o] ++ more). now rewrite app_assoc.
  - rewrite <- app_assoc, nth_error_app2 by lia. rewrite Nat.sub_diag. cbn. congruence.
Qed.
Lemma stands_back text s c post h ws : stands text s ws ->
  stands text (mkPst (tokenizer_clone (s_tok s)) (s_cur s) c post h) ws.
Proof.
  intros (t & ws' & E & C & A). exists t, ws'. repeat split; auto; cbn; [|].
  - constructor. apply A.
  - eapply ahead_spot; [exact A|constructor; apply A|apply same_spot_clone].
Qed.
Lemma stands_heap text s h ws : stands text s ws -> stands text (with_heap h s) ws.
Proof. intros (t & ws' & E & C & A). exists t, ws'. auto. Qed.
Lemma wp_new_type_id u i d s (Q : typeid -> pst -> Prop) :
  Q (mkTypeId u i (length (h_refs (s_heap s)))) (with_heap (with_refs (h_refs (s_heap s) ++ [d]) (s_heap s)) s) ->
  wp (new_type_id u i d) s Q.
Proof. intros H. eexists _, _. split; [reflexivity|exact H]. Qed.
Lemma quiet_refs s d : quiet s (with_heap (with_refs (h_refs (s_heap s) ++ [d]) (s_heap s)) s).
Proof. unfold quiet. cbn. repeat split; eauto. exists []. now rewrite app_nil_r. Qed.

#[global] Opaque wp.

(** ** Lookups *)
Lemma run_get s name : run (get name) s =
  match ctx_get (s_heap s) (s_ctx s) name with
  | LNil => OOk None s | LFound d => OOk (Some d) s | LPanic => OPanic
  end.
Proof. unfold get. cbn [run]. destruct (ctx_get _ _ _); now rewrite ?with_same_heap. Qed.
Lemma run_node s d : run (node_of d) s =
  match deref (s_heap s) d with Some o => OOk (d_node o) s | None => OPanic end.
Proof. unfold node_of. cbn [run]. destruct (deref _ _); now rewrite ?with_same_heap. Qed.
Lemma run_get_node s name : run (get_node name) s =
  match ctx_get (s_heap s) (s_ctx s) name with
  | LNil => OOk None s
  | LFound d => match deref (s_heap s) d with Some o => OOk (Some (d, d_node o)) s | None => OPanic end
  | LPanic => OPanic
  end.
Proof.
  unfold get_node. rewrite run_bind, run_get. destruct (ctx_get _ _ _) as [|d|]; auto.
  rewrite run_bind, run_node. now destruct (deref _ _).
Qed.

End WithUnicode.
