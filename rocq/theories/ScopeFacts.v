(** States of the parser in which at least what a scope says is known of names. *)
From Coq Require Import String List NArith Bool Arith Lia.
From Verif Require Import ListUtil Runes UnicodeFacts Token Tokenizer LexSpec LexShape LexFacts LexMain Ext ExtMain
  Ast Heap Classes MapSpec MapFacts MapMain Prog ParseSpec Parser RunFacts ExprSpec WpFacts ExprFacts StmtSpec GrowFacts
  StmtFacts EvolveFacts EvolveParse DeclSpec.
Import ListNotations.
Local Open Scope list_scope.

Section WithUnicode.
Context {U : Unicode} {UOK : UnicodeOk U}.

Notation words := (list (ttype * gostring)).

(** ** Statements where more is known *)
Definition senv_weak (a b : senv) : Prop :=
  env_weak (names a) (names b) /\ (forall n, a_label a n -> a_label b n) /\ (forall n, no_label a n -> no_label b n).
Lemma all_imp {A} (P Q : A -> Prop) l : (forall x, In x l -> P x -> Q x) -> all P l -> all Q l.
Proof.
  intros H. induction l as [|x l IH]; [auto|]. cbn [all fold_right]. intros [Px Pl]. split; [apply H; [now left|exact Px]|].
  apply IH; [|exact Pl]. intros y I. apply H. now right.
Qed.
Lemma each_imp {A} (P Q : bool -> A -> Prop) l : (forall b x, In x l -> P b x -> Q b x) -> each P l -> each Q l.
Proof.
  intros H. induction l as [|x [|y l] IH]; [auto| |].
  - cbn [each]. apply H. now left.
  - intros [Px Pl]. split; [apply H; [now left|exact Px]|]. apply IH; [|exact Pl]. intros b z I. apply H. now right.
Qed.
Section Weak.
Context (sp : spelling) (a b : senv) (LE : senv_weak a b).
Lemma weak_a_name n : a_name a n -> a_name b n.
Proof. destruct LE as ((LP & LT & _) & _). intros [H|H]; [left|right]; auto. Qed.
Lemma weak_good_type t : good_type a t -> good_type b t.
Proof. destruct t; cbn; auto. intros [H1 H2]. split; [exact H1|now apply weak_a_name]. Qed.
Fixpoint weak_stmt (s : stmt) : forall after, good_stmt sp a s after -> good_stmt sp b s after
with weak_body (s : sbody) : forall after, good_body sp a s after -> good_body sp b s after.
Proof.
  - destruct s as [label s]. intros after. cbn [good_stmt]. intros [G1 G2]. split; [|now apply weak_body].
    pose proof LE as (_ & LL & LN). destruct label; auto.
  - assert (L : forall l x, each (fun last s => good_stmt sp a s (behind sp last x)) l -> each (fun last s => good_stmt sp b s (behind sp last x)) l).
    { clear -weak_stmt. intros l x. induction l as [|s [|s2 l] IH]; [auto| |].
      - cbn [each]. apply weak_stmt.
      - intros [G1 G2]. split; [now apply weak_stmt|now apply IH]. }
    pose proof (fun e => weak_expr (names a) (names b) (proj1 LE) e) as E.
    pose proof (fun e => weak_desig (names a) (names b) (proj1 LE) e) as D.
    pose proof (fun e => weak_name (names a) (names b) (proj1 LE) e) as N.
    pose proof LE as ((LP & LT & LM & LX) & LL & LN).
    intros after. destruct s as [d e|d args| |i r|l|e s1 s2|e sels els|l e|e s|q e1 e2 dn s|qs s|l hs els|l1 l2|o ad|]; cbn [good_body].
    + intros [G1 G2]. auto.
    + intros [G1 G2]. split; [auto|]. destruct args; [|auto]. destruct G2 as [G2 G3]. split; [exact G2|].
      eapply all_imp; [|exact G3]. auto.
    + auto.
    + intros [H|H]; auto.
    + apply L.
    + intros [G1 G2]. split; [auto|]. destruct s2 as [s2|]; destruct G2 as [G2 G3].
      * split; [exact (weak_stmt _ _ G2)|exact (weak_stmt _ _ G3)].
      * split; [exact G2|exact (weak_stmt _ _ G3)].
    + intros (G1 & G2 & G3 & G4). split; [auto|]. split; [exact G2|]. split.
      * clear G2. induction sels as [|r sels IH]; [exact I|]. destruct G3 as [(H1 & H2 & H3) G3]. split; [|now apply IH].
        split; [exact H1|]. split; [|exact (weak_stmt _ _ H3)]. eapply all_imp; [|exact H2]. intros x _ [X1 X2]. split; [auto|].
        destruct (snd x); auto.
      * destruct els; [exact (L _ _ G4)|exact G4].
    + intros [G1 G2]. split; [exact (L _ _ G1)|auto].
    + intros [G1 G2]. split; [auto|exact (weak_stmt _ _ G2)].
    + intros (G1 & G2 & G3 & G4). split; [auto|]. split; [auto|]. split; [auto|exact (weak_stmt _ _ G4)].
    + intros (G1 & G2 & G3). split; [exact G1|]. split; [|exact (weak_stmt _ _ G3)]. eapply all_imp; [|exact G2]. auto.
    + intros [G1 G2]. split; [exact (L _ _ G1)|]. destruct hs as [|h hs].
      * destruct els; [|exact G2]. destruct G2 as [G2 G3]. split; [exact (L _ _ G2)|exact G3].
      * destruct G2 as [G2 G3]. split; [|destruct els; [exact (L _ _ G3)|exact G3]]. revert G2. generalize (h :: hs). clear -weak_stmt LE LP LT LN.
        intros l0 G2.
        assert (X : forall x h, good_type a (snd (fst h)) /\
            match fst (fst h) with
            | None => match snd (fst h) with TId i => type_name (names a) (i_name (ti_ident i)) | _ => False end
            | Some i => forall n, same_name n (i_name i) -> plain_name (names a) n /\ no_label a n
            end /\ good_stmt sp a (snd h) x -> good_type b (snd (fst h)) /\
            match fst (fst h) with
            | None => match snd (fst h) with TId i => type_name (names b) (i_name (ti_ident i)) | _ => False end
            | Some i => forall n, same_name n (i_name i) -> plain_name (names b) n /\ no_label b n
            end /\ (good_stmt sp a (snd h) x -> good_stmt sp b (snd h) x -> good_stmt sp b (snd h) x)).
        { intros x [[oi t] s] (H1 & H2 & H3). cbn [fst snd] in *. split; [now apply weak_good_type|]. split; [|auto].
          destruct oi as [i|]; [intros n Sn; destruct (H2 n Sn); auto|]. destruct t; auto. }
        induction l0 as [|[[oi t] s] [|h2 l0] IH]; [auto| |].
        -- cbn [each] in *. destruct (X _ _ G2) as (Y1 & Y2 & _). split; [exact Y1|]. split; [exact Y2|]. cbn [snd]. now apply weak_stmt.
        -- destruct G2 as [G2 G4]. split; [|now apply IH]. destruct (X _ _ G2) as (Y1 & Y2 & _). split; [exact Y1|]. split; [exact Y2|].
           cbn [snd]. now apply weak_stmt.
    + intros [G1 G2]. split; [exact (L _ _ G1)|exact (L _ _ G2)].
    + destruct o as [o|]; destruct ad as [ad|]; auto; intros [G1 G2]; split; auto; destruct G1; auto.
    + auto.
Qed.
End Weak.

(** ** States in a scope *)
Context (text : list rune).
Record in_scope (sc : scope) (s : pst) (ws : words) : Prop := mkInScope {
  sc_context : parser_context s;
  sc_total : forall n, ctx_get (s_heap s) (s_ctx s) n <> LPanic;
  sc_plain : forall n, plain_name (names (known sc)) n -> plain_name (names (senv_of s)) n;
  sc_type : forall n, type_name (names (known sc)) n -> type_name (names (senv_of s)) n;
  sc_member : forall n m, (exists d d', member (names (known sc)) n m d d') -> exists d d', member (names (senv_of s)) n m d d';
  sc_label : forall n, a_label (known sc) n -> a_label (senv_of s) n;
  sc_none : forall n, no_label (known sc) n -> no_label (senv_of s) n;
  sc_free : forall n, free sc n -> vacant (s_heap s) (s_ctx s) n;
  sc_undeclared : forall n, undeclared sc n -> ctx_get (s_heap s) (s_ctx s) n = LNil;
  sc_ordinal : forall n, ordinal sc n -> ordinal (scope_at (s_heap s) (s_ctx s)) n;
  sc_stands : stands text s ws }.
Lemma scope_le_refl a : scope_le a a.
Proof. unfold scope_le. auto 10. Qed.
Lemma in_scope_le a b s ws : scope_le a b -> in_scope b s ws -> in_scope a s ws.
Proof. intros (L1 & L2 & L3 & L4 & L5 & L6 & L7 & L8) [A1 A2 A3 A4 A5 A6 A7 A8 A9 A10 A11]. constructor; auto. Qed.
Lemma in_scope_weak sc s ws : in_scope sc s ws -> senv_weak (known sc) (senv_of s).
Proof.
  intros I. split; [|split; apply I]. split; [apply I|]. split; [apply I|]. split; [apply I|].
  intros n P T. exfalso. apply (sc_plain _ _ _ I) in P. now apply (plain_not_type s n P).
Qed.
Lemma in_scope_grown vs sc s s' ws ws' : in_scope sc s ws -> grown vs s s' -> stands text s' ws' -> in_scope (declare vs sc) s' ws'.
Proof.
  intros [A1 A2 A3 A4 A5 A6 A7 A8 A9 A10 A11] [B1 B2 B3 B4 B5 B6 B7 B8 B9] St. destruct (B2 A1) as (L1 & L2 & L3).
  constructor; auto; cbn [declare known free undeclared ordinal].
  - intros n H. apply L2. auto.
  - intros n H. apply B3; auto.
  - intros n [H1 H2]. apply B5; auto.
  - intros n [H1 H2]. rewrite B6; auto.
  - intros n H. apply A10 in H. cbn [scope_at ordinal] in *. destruct H as [H|(H1 & d & t & H2 & H3)]; [now left|right].
    split; [exact H1|]. exists d, t. auto.
Qed.
Lemma declare_nil sc : scope_le sc (declare [] sc).
Proof. unfold scope_le, declare. cbn. auto 12. Qed.
Lemma in_scope_calm sc s s' ws ws' : in_scope sc s ws -> calm s s' -> stands text s' ws' -> in_scope sc s' ws'.
Proof.
  intros I C St. eapply in_scope_le; [apply declare_nil|]. eapply in_scope_grown; [exact I|now apply calm_grown|exact St].
Qed.
Lemma stands_post l s ws : stands text s ws -> stands text (with_post l s) ws.
Proof. intros (t & ws' & E & C & A). exists t, ws'. auto. Qed.
Lemma in_scope_post l sc s ws : in_scope sc s ws -> in_scope sc (with_post l s) ws.
Proof.
  intros I. eapply in_scope_calm; [exact I| |apply stands_post, I]. unfold calm. cbn. auto 10.
Qed.

(** Scopes, one behind the other. *)
Lemma declare_app v1 v2 sc : scope_le (declare (v1 ++ v2) sc) (declare v2 (declare v1 sc)).
Proof.
  unfold scope_le, declare. cbn [known free undeclared ordinal].
  repeat match goal with |- _ /\ _ => split end; auto; intros n [H1 H2]; rewrite map_app, in_app_iff in H2; tauto.
Qed.
Lemma declare_app' v1 v2 sc : scope_le (declare v2 (declare v1 sc)) (declare (v1 ++ v2) sc).
Proof.
  unfold scope_le, declare. cbn [known free undeclared ordinal].
  repeat match goal with |- _ /\ _ => split end; auto; intros n [[H1 H2] H3]; rewrite map_app, in_app_iff; tauto.
Qed.
Lemma leave_enter vs sc : scope_le (declare vs sc) (leave sc (declare vs (enter sc))).
Proof.
  unfold scope_le, declare, leave, enter. cbn. repeat split; try tauto.
  intros n m (d & d' & H). eauto.
Qed.

(** ** Rules *)
Lemma wp_assoc {A B C} (p : prog A) (f : A -> prog B) (g : B -> prog C) s Q :
  wp (Bind p (fun a => Bind (f a) g)) s Q -> wp (Bind (Bind p f) g) s Q.
Proof.
  intros H. apply wp_elim in H as (c & s' & E & H). apply (wp_run _ _ c s'); [|exact H].
  cbn [run] in E |- *. destruct (run p s); try discriminate. exact E.
Qed.
Lemma wp_last {A} (p : prog A) s Q : wp (Bind p (fun a => Ret a)) s Q -> wp p s Q.
Proof.
  intros H. apply wp_elim in H as (c & s' & E & H). apply (wp_run _ _ c s'); [|exact H].
  rewrite run_bind in E. destruct (run p s); try discriminate. exact E.
Qed.
Lemma wp_ret_bind {A B} (a : A) (k : A -> prog B) s Q : wp (k a) s Q -> wp (Bind (Ret a) k) s Q.
Proof. intros H. apply wp_bind, wp_ret. exact H. Qed.

Section Rules.
Context {B : Type} (sc : scope) (s : pst) (Q : B -> pst -> Prop).
Lemma d_next (k : option token -> prog B) w ws : in_scope sc s (w :: ws) -> ws <> [] ->
  (forall t s1, in_scope sc s1 ws -> wp (k t) s1 Q) -> wp (Bind Next k) s Q.
Proof.
  intros I NE K. apply wp_bind. eapply wp_next; [apply I|exact NE|]. intros t s1 C Hd St SB. apply K.
  eapply in_scope_calm; [exact I|now apply quiet_calm, quiet_place|exact St].
Qed.
Lemma d_next_tok (k : token -> prog B) w w2 ws : in_scope sc s (w :: w2 :: ws) ->
  (forall t s1, word_of t = w2 -> in_scope sc s1 (w2 :: ws) -> wp (k t) s1 Q) -> wp (Bind next k) s Q.
Proof.
  intros I K. unfold next. apply wp_assoc, wp_bind. eapply wp_next; [apply I|discriminate|]. intros t s1 C Hd St SB.
  apply wp_ret_bind. apply K; [cbn [hd_error] in Hd; congruence|].
  eapply in_scope_calm; [exact I|now apply quiet_calm, quiet_place|exact St].
Qed.
Lemma d_is pred b (k : bool -> prog B) w ws : in_scope sc s (w :: ws) -> (forall t, word_of t = w -> pred t = b) ->
  wp (k b) s Q -> wp (Bind (is pred) k) s Q.
Proof.
  intros I E K. destruct (stands_cur _ _ _ _ (sc_stands _ _ _ I)) as (t & C & Wt & _).
  apply wp_bind. eapply wp_is; [exact C|]. rewrite (E t Wt). exact K.
Qed.
Lemma d_cur (k : token -> prog B) w ws : in_scope sc s (w :: ws) -> (forall t, word_of t = w -> wp (k t) s Q) -> wp (Bind cur k) s Q.
Proof.
  intros I K. destruct (stands_cur _ _ _ _ (sc_stands _ _ _ I)) as (t & C & Wt & _).
  apply wp_bind. eapply wp_cur; [exact C|]. now apply K.
Qed.
Lemma d_Cur (k : option token -> prog B) w ws : in_scope sc s (w :: ws) -> (forall t, word_of t = w -> wp (k (Some t)) s Q) -> wp (Bind Cur k) s Q.
Proof.
  intros I K. destruct (stands_cur _ _ _ _ (sc_stands _ _ _ I)) as (t & C & Wt & _).
  apply wp_bind. eapply wp_cur_opt; [exact C|]. now apply K.
Qed.
Lemma d_expect pred (k : token -> prog B) w ws : in_scope sc s (w :: ws) -> (forall t, word_of t = w -> pred t = true) ->
  (forall t, word_of t = w -> wp (k t) s Q) -> wp (Bind (expect pred) k) s Q.
Proof.
  intros I E K. destruct (stands_cur _ _ _ _ (sc_stands _ _ _ I)) as (t & C & Wt & _).
  apply wp_bind. eapply wp_expect; [exact C|now apply E|]. now apply K.
Qed.
Lemma d_expect_or_fail pred (k : token -> prog B) w ws : in_scope sc s (w :: ws) -> (forall t, word_of t = w -> pred t = true) ->
  (forall t, word_of t = w -> wp (k t) s Q) -> wp (Bind (expect_or_fail pred) k) s Q.
Proof.
  intros I E K. unfold expect_or_fail. apply wp_assoc. eapply d_cur; [exact I|]. intros t Wt. rewrite (E t Wt).
  apply wp_ret_bind. now apply K.
Qed.
Lemma d_expect_next pred (k : token -> prog B) w w2 ws : in_scope sc s (w :: w2 :: ws) -> (forall t, word_of t = w2 -> pred t = true) ->
  (forall t s1, word_of t = w2 -> in_scope sc s1 (w2 :: ws) -> wp (k t) s1 Q) -> wp (Bind (expect_next pred) k) s Q.
Proof.
  intros I E K. apply wp_bind. eapply wp_expect_next; [apply I|exact E|]. intros t s1 C Wt St SB. apply K; [exact Wt|].
  eapply in_scope_calm; [exact I|now apply quiet_calm, quiet_place|exact St].
Qed.
Lemma d_traced {A} (p : prog A) (k : A -> prog B) w ws : in_scope sc s (w :: ws) ->
  wp (Bind p (fun a => Bind cur (fun _ => k a))) s Q -> wp (Bind (Traced p) k) s Q.
Proof.
  intros I H. destruct (stands_cur _ _ _ _ (sc_stands _ _ _ I)) as (t & C & Wt & _).
  apply wp_elim in H as (c & s' & E & H). apply (wp_run _ _ c s'); [|exact H].
  rewrite run_bind in E |- *. cbn [run]. rewrite C. destruct (run p s) as [a s1| | | |]; try discriminate.
  unfold cur in E. cbn [run] in E. destruct (s_cur s1); cbn [run] in E; [exact E|discriminate].
Qed.
Lemma d_postscope {A} (p : prog A) (k : A -> prog B) : 
  wp p (with_post [] s) (fun a s' => wp (k a) (with_post (s_post s) s') Q) -> wp (Bind (PostScope p) k) s Q.
Proof.
  intros H. apply wp_elim in H as (a & s' & E & H). apply wp_bind. apply (wp_run _ _ a (with_post (s_post s) s')); [|exact H].
  cbn [run]. rewrite E. reflexivity.
Qed.
Lemma d_runpost (k : unit -> prog B) ws : in_scope sc s ws -> (forall s1, in_scope sc s1 ws -> wp (k tt) s1 Q) -> wp (Bind RunPost k) s Q.
Proof.
  intros I K. assert (exists v, run RunPost s = OOk tt (with_heap (with_refs v (s_heap s)) s)) as (v & E).
  { cbn [run]. assert (T : forall n, ctx_get (s_heap s) (s_ctx s) n <> LPanic) by apply I.
    assert (X : forall v0, exists v, run_post (s_ctx s) (s_post s) (with_refs v0 (s_heap s)) = Some (with_refs v (s_heap s))).
    { induction (s_post s) as [|[cell n] l IH]; intros v0; cbn [run_post]; [eauto|].
      pose proof (calm_get s (with_heap (with_refs v0 (s_heap s)) s) n) as G. cbn [with_heap s_heap s_ctx] in G.
      rewrite G; [|apply I|unfold calm; cbn; auto 10].
      destruct (ctx_get (s_heap s) (s_ctx s) n) as [|d|] eqn:En; [apply IH| |now destruct (T n)]. exact (IH _). }
    specialize (X (h_refs (s_heap s))). replace (with_refs (h_refs (s_heap s)) (s_heap s)) with (s_heap s) in X by (now destruct (s_heap s)).
    destruct X as (v & ->). now exists v. }
  apply wp_bind. eapply wp_run; [exact E|]. apply K. eapply in_scope_calm; [exact I| |apply stands_heap, I].
  unfold calm. cbn. auto 10.
Qed.
(** Parts that declare nothing. *)
Lemma d_quiet {A} (p : prog A) (Post : A -> Prop) (k : A -> prog B) ws ws' : in_scope sc s ws ->
  wp p s (fun a s' => Post a /\ stands text s' ws' /\ calm s s') ->
  (forall a s1, Post a -> in_scope sc s1 ws' -> wp (k a) s1 Q) -> wp (Bind p k) s Q.
Proof.
  intros I H K. apply wp_bind. eapply wp_conseq; [exact H|]. intros a s1 (Ha & St & C). apply K; [exact Ha|].
  eapply in_scope_calm; eauto.
Qed.
Lemma d_accepts {A} (p : prog A) w l (Post : A -> Prop) (k : A -> prog B) ws : in_scope sc s (w ++ ws) ->
  (accepts text (names (senv_of s)) p w l Post) -> stops l ws ->
  (forall a s1, Post a -> in_scope sc s1 ws -> wp (k a) s1 Q) -> wp (Bind p k) s Q.
Proof.
  intros I H Sp K. eapply d_quiet; [exact I| |exact K]. eapply wp_conseq; [apply H; [apply agrees_here, I|apply I|exact Sp]|].
  intros a s1 (Ha & St & C). split; [exact Ha|]. split; [exact St|now apply quiet_calm].
Qed.
Lemma d_expr m e (k : expr -> prog B) ws : in_scope sc s (write_expr e ++ ws) ->
  length (write_expr e) < m -> good_expr (names (known sc)) e -> stops expr_on ws ->
  (forall e' s1, bare_expr e' = bare_expr e -> in_scope sc s1 ws -> wp (k e') s1 Q) -> wp (Bind (r_expr (recs_at m)) k) s Q.
Proof.
  intros I L G Sp K. eapply d_accepts; [exact I| |exact Sp|exact K]. destruct m as [|m]; [lia|]. cbn [recs_at r_expr]. apply (accepts_at text); [lia|].
  eapply weak_expr; [|exact G]. apply (in_scope_weak _ _ _ I).
Qed.
Lemma d_expr_here m e (k : expr -> prog B) ws : in_scope sc s (write_expr e ++ ws) ->
  length (write_expr e) <= m -> good_expr (names (known sc)) e -> stops expr_on ws ->
  (forall e' s1, bare_expr e' = bare_expr e -> in_scope sc s1 ws -> wp (k e') s1 Q) -> wp (Bind (parse_expression (recs_at m)) k) s Q.
Proof.
  intros I L G Sp K. eapply d_accepts; [exact I| |exact Sp|exact K]. apply (accepts_at text); [exact L|].
  eapply weak_expr; [|exact G]. apply (in_scope_weak _ _ _ I).
Qed.

(** Declarations. *)
Lemma d_set ds (k : unit -> prog B) ws : in_scope sc s ws -> ds <> [] -> Forall (fun x => ordinary (d_node x)) ds ->
  may_declare sc (map decl_name ds) ->
  (forall s1, in_scope (declare (map decl_name ds) sc) s1 ws -> wp (k tt) s1 Q) -> wp (Bind (set ds) k) s Q.
Proof.
  intros I NE O [ND Md] K. destruct (set_plain s ds) as (h' & R & G); try assumption.
  - apply I.
  - rewrite Forall_forall. intros n J. apply (sc_free _ _ _ I), (Md n J).
  - intros n J. unfold keys in J. apply in_map_iff in J as (x & E & J). destruct (Md x J) as [_ X].
    destruct (X n) as [X1 X2]; [symmetry; exact E|]. split; [now apply (sc_plain _ _ _ I)|now apply (sc_none _ _ _ I)].
  - apply wp_bind. eapply wp_run; [exact R|]. apply K. eapply in_scope_grown; [exact I|exact G|apply stands_heap, I].
Qed.
End Rules.

(** ** Declarations of types and labels *)
Lemma key_in n x : In (to_lower n) (keys [x]) <-> same_name n x.
Proof. unfold keys, same_name. cbn. intuition. Qed.
Lemma in_scope_type sc s ws i t b h' : in_scope sc s ws -> set_facts [mkDecl i (NType t)] s h' ->
  undeclared sc (i_name i) -> (b = true -> match t with TEnum _ | TSubrange _ _ => True | _ => False end) ->
  in_scope (declare_as_type (i_name i) b sc) (with_heap h' s) ws.
Proof.
  intros I [F1 F2 F3 F4 F5 F6 F7 F8 F9 F10 F11 F12] Un Or. cbn [map decl_name d_ident] in *.
  set (h := s_heap s) in *. set (c := s_ctx s) in *.
  assert (Do : forall e x, deref h e = Some x -> deref h' e = Some x).
  { intros [e|e] x; cbn; [auto|]. rewrite F5. intros E. rewrite nth_error_app1; [exact E|]. eapply nth_lt; eauto. }
  assert (Dec : forall n, same_name n (i_name i) \/ ~ same_name n (i_name i)).
  { intros n. unfold same_name. destruct (list_eq_dec N.eq_dec (to_lower n) (to_lower (i_name i))); auto. }
  assert (Get : forall n, ~ same_name n (i_name i) -> ctx_get h' c n = ctx_get h c n).
  { intros n N. apply F8. now rewrite key_in. }
  assert (Rs : forall n e x, ~ same_name n (i_name i) -> resolves h c n e x -> resolves h' c n e x).
  { intros n e x N (E & y & D & Y). unfold resolves. rewrite (Get n N). eauto. }
  assert (New : forall n, same_name n (i_name i) -> exists d, resolves h' c n d (NType t)).
  { intros n N. destruct (F9 (mkDecl i (NType t)) n) as (d & G & D); [now left|exact N|]. exists d. split; [exact G|]. eauto. }
  destruct I as [A1 A2 A3 A4 A5 A6 A7 A8 A9 A10 A11]. fold h c in A2, A8, A9, A10. unfold senv_of in *. fold h c in A3, A4, A5, A6, A7.
  constructor; cbn [declare_as_type known free undeclared ordinal names a_label no_label plain_name type_name member with_heap s_heap s_ctx]; fold c.
  - destruct A1 as (o & E & K). exists o. split; [|exact K]. cbn. rewrite F1. exact E.
  - intros n. destruct (Dec n) as [N|N]; [|rewrite (Get n N); apply A2]. destruct (New n N) as (d & G & _). congruence.
  - intros n [P N]. apply A3 in P. cbn in *. destruct P as [E|(e & x & E & X)]; [left; now rewrite Get|right; exists e, x; auto].
  - intros n T. destruct (Dec n) as [N|N]; [destruct (New n N) as (d & G); exists d, t; exact G|].
    destruct T as [T|T]; [|contradiction]. apply A4 in T as (d & t' & G). exists d, t'. auto.
  - intros n m (d & d' & M & N). destruct (A5 n m (ex_intro _ d (ex_intro _ d' M))) as (e & e' & x & mp & E & NM & Gm).
    assert (NM' : namespace_map h' x mp) by (destruct x; cbn in *; rewrite ?F2, ?F3, ?F4; exact NM).
    destruct (proj1 (found_stays h h' mp m e' (fun a d => F10 a m d) (fun a => F11 a m)) Gm) as (d2 & G2).
    exists e, d2, x, mp. auto.
  - intros n [L N]. apply A6 in L as (d & E). exists d. auto.
  - intros n L. apply A7 in L. cbn in *. destruct (Dec n) as [N|N].
    + right. destruct (New n N) as (d & G). exists d, (NType t). split; [exact G|discriminate].
    + destruct L as [E|(e & x & E & X)]; [left; now rewrite Get|right; exists e, x; auto].
  - intros n [Fr N]. apply F12; [now rewrite key_in|now apply A8].
  - intros n [Fr N]. rewrite Get by exact N. now apply A9.
  - intros n [[O N]|(-> & N & NB)].
    + apply A10 in O. cbn in *. destruct O as [O|(NB & d & t' & E & O)]; [now left|right]. split; [exact NB|]. exists d, t'. auto.
    + right. split; [exact NB|]. destruct (New n N) as (d & G). exists d, t. split; [exact G|]. now apply Or.
  - now apply stands_heap.
Qed.
Lemma in_scope_label sc s ws i h' : in_scope sc s ws -> set_facts [mkDecl i NLabel] s h' ->
  (forall n, same_name n (i_name i) -> plain_name (names (known sc)) n) ->
  in_scope (declare_as_label (i_name i) sc) (with_heap h' s) ws.
Proof.
  intros I [F1 F2 F3 F4 F5 F6 F7 F8 F9 F10 F11 F12] Pl. cbn [map decl_name d_ident] in *.
  set (h := s_heap s) in *. set (c := s_ctx s) in *.
  assert (Do : forall e x, deref h e = Some x -> deref h' e = Some x).
  { intros [e|e] x; cbn; [auto|]. rewrite F5. intros E. rewrite nth_error_app1; [exact E|]. eapply nth_lt; eauto. }
  assert (Dec : forall n, same_name n (i_name i) \/ ~ same_name n (i_name i)).
  { intros n. unfold same_name. destruct (list_eq_dec N.eq_dec (to_lower n) (to_lower (i_name i))); auto. }
  assert (Get : forall n, ~ same_name n (i_name i) -> ctx_get h' c n = ctx_get h c n).
  { intros n N. apply F8. now rewrite key_in. }
  assert (Rs : forall n e x, ~ same_name n (i_name i) -> resolves h c n e x -> resolves h' c n e x).
  { intros n e x N (E & y & D & Y). unfold resolves. rewrite (Get n N). eauto. }
  assert (New : forall n, same_name n (i_name i) -> exists d, resolves h' c n d NLabel).
  { intros n N. destruct (F9 (mkDecl i NLabel) n) as (d & G & D); [now left|exact N|]. exists d. split; [exact G|]. eauto. }
  assert (Pl' : forall n d x, same_name n (i_name i) -> resolves h c n d x -> ~ is_namespace x /\ forall t, x <> NType t).
  { intros n d x N R. specialize (Pl n N). apply (sc_plain _ _ _ I) in Pl. unfold senv_of in Pl. cbn [names senv_at plain_name env_at] in Pl. fold h c in Pl.
    destruct R as (G & y & D & Y). destruct Pl as [E|(e & z & (G2 & y2 & D2 & Y2) & Z)]; [rewrite G in E; discriminate|].
    rewrite G in G2. injection G2 as <-. rewrite D in D2. injection D2 as <-. rewrite <- Y, Y2. exact Z. }
  destruct I as [A1 A2 A3 A4 A5 A6 A7 A8 A9 A10 A11]. fold h c in A2, A8, A9, A10. unfold senv_of in *. fold h c in A3, A4, A5, A6, A7.
  constructor; cbn [declare_as_label known free undeclared ordinal names a_label no_label with_heap s_heap s_ctx]; fold c.
  - destruct A1 as (o & E & K). exists o. split; [|exact K]. cbn. rewrite F1. exact E.
  - intros n. destruct (Dec n) as [N|N]; [|rewrite (Get n N); apply A2]. destruct (New n N) as (d & G & _). congruence.
  - intros n P. apply A3 in P. cbn in *. destruct (Dec n) as [N|N].
    + right. destruct (New n N) as (d & G). exists d, NLabel. split; [exact G|]. split; [intros []|discriminate].
    + destruct P as [E|(e & x & E & X)]; [left; now rewrite Get|right; exists e, x; auto].
  - intros n T. apply A4 in T as (d & t' & G). exists d, t'. apply Rs; [|exact G]. intros N. destruct (Pl' n d _ N G) as [_ X]. now apply (X t').
  - intros n m M. destruct (A5 n m M) as (e & e' & x & mp & E & NM & Gm).
    assert (NM' : namespace_map h' x mp) by (destruct x; cbn in *; rewrite ?F2, ?F3, ?F4; exact NM).
    destruct (proj1 (found_stays h h' mp m e' (fun a d => F10 a m d) (fun a => F11 a m)) Gm) as (d2 & G2).
    exists e, d2, x, mp. split; [|auto]. apply Rs; [|exact E]. intros N. destruct (Pl' n e _ N E) as [X _]. apply X.
    destruct x; cbn in NM; try contradiction; exact Logic.I.
  - intros n L. destruct (Dec n) as [N|N]; [destruct (New n N) as (d & G); exists d; exact G|].
    destruct L as [L|L]; [|contradiction]. apply A6 in L as (d & E). exists d. auto.
  - intros n [L N]. apply A7 in L. cbn in *. destruct L as [E|(e & x & E & X)]; [left; now rewrite Get|right; exists e, x; auto].
  - intros n [Fr N]. apply F12; [now rewrite key_in|now apply A8].
  - intros n [Fr N]. rewrite Get by exact N. now apply A9.
  - intros n O. apply A10 in O. cbn in *. destruct O as [O|(NB & d & t' & E & O)]; [now left|right]. split; [exact NB|]. exists d, t'.
    split; [|exact O]. apply Rs; [|exact E]. intros N. destruct (Pl' n d _ N E) as [_ X]. now apply (X t').
  - now apply stands_heap.
Qed.
Section Rules2.
Context {B : Type} (sc : scope) (s : pst) (Q : B -> pst -> Prop).
Lemma d_declare_type i t (k : unit -> prog B) ws : in_scope sc s ws ->
  undeclared sc (i_name i) -> free sc (i_name i) ->
  (forall s1, in_scope (declare_as_type (i_name i) (enumerates t) sc) s1 ws -> wp (k tt) s1 Q) ->
  wp (Bind (declare_type i t) k) s Q.
Proof.
  intros I Un Fr K. unfold declare_type, get_node. apply wp_assoc, wp_assoc.
  apply wp_bind. eapply wp_run; [rewrite run_get, (sc_undeclared _ _ _ I _ Un); reflexivity|]. apply wp_ret_bind.
  destruct (set_core s [mkDecl i (NType t)]) as (h' & R & F).
  - apply I.
  - constructor; [|constructor]. now apply (sc_free _ _ _ I).
  - discriminate.
  - cbn. constructor; [intros []|constructor].
  - apply wp_bind. eapply wp_run; [exact R|]. apply K. eapply in_scope_type; [exact I|exact F|exact Un|].
    destruct t; cbn; auto; discriminate.
Qed.
Lemma d_set_label i (k : unit -> prog B) ws : in_scope sc s ws -> free sc (i_name i) ->
  (forall n, same_name n (i_name i) -> plain_name (names (known sc)) n) ->
  (forall s1, in_scope (declare_as_label (i_name i) sc) s1 ws -> wp (k tt) s1 Q) ->
  wp (Bind (set [mkDecl i NLabel]) k) s Q.
Proof.
  intros I Fr Pl K. destruct (set_core s [mkDecl i NLabel]) as (h' & R & F).
  - apply I.
  - constructor; [|constructor]. now apply (sc_free _ _ _ I).
  - discriminate.
  - cbn. constructor; [intros []|constructor].
  - apply wp_bind. eapply wp_run; [exact R|]. apply K. eapply in_scope_label; [exact I|exact F|exact Pl].
Qed.
End Rules2.

(** ** Inner scopes *)
Lemma impl_get_keep h h' a n : same_maps None h h' -> impl_get h a n <> LPanic -> impl_get h' a n = impl_get h a n.
Proof.
  intros S. unfold impl_get. destruct (nth_error (h_maps h) a) as [m|] eqn:E; [|congruence]. intros _.
  destruct (S a m E) as (m' & -> & X & _). now rewrite X.
Qed.
Lemma dget_keep h h' m n : same_maps None h h' -> dget h m n <> LPanic -> dget h' m n = dget h m n.
Proof.
  intros S. induction m as [a|p a IH|ms IH| |] using dmap_ind'; auto.
  - now apply impl_get_keep.
  - cbn [dget]. destruct (impl_get h a n) as [|d|] eqn:E.
    + rewrite (impl_get_keep h h' a n S), E by congruence. exact IH.
    + rewrite (impl_get_keep h h' a n S), E by congruence. auto.
    + congruence.
  - rewrite !dget_composite. induction IH as [|m ms IH1 _ IH2]; [auto|]. cbn [map first_found].
    destruct (dget h m n) as [|d|] eqn:E.
    + rewrite IH1 by congruence. exact IH2.
    + rewrite IH1 by congruence. auto.
    + congruence.
Qed.
(** The same place, in a heap where nothing was changed but something added. *)
Lemma in_scope_keep sc s s' ws ws' o : in_scope sc s ws -> nth_error (h_ctxs (s_heap s)) (s_ctx s) = Some o ->
  nth_error (h_ctxs (s_heap s')) (s_ctx s') = Some o -> same_maps None (s_heap s) (s_heap s') ->
  (exists l, h_decls (s_heap s') = h_decls (s_heap s) ++ l) -> h_uses (s_heap s') = h_uses (s_heap s) ->
  h_units (s_heap s') = h_units (s_heap s) -> h_progs (s_heap s') = h_progs (s_heap s) ->
  stands text s' ws' -> in_scope sc s' ws'.
Proof.
  intros [A1 A2 A3 A4 A5 A6 A7 A8 A9 A10 A11] Eo Eo' SM (l & Dl) Us Un Pr St. unfold senv_of in *.
  assert (K : forall p, cx_kind o <> KStack p) by (destruct A1 as (o1 & E1 & K); rewrite Eo in E1; injection E1 as <-; exact K).
  set (h := s_heap s) in *. set (c := s_ctx s) in *.
  assert (G : forall n, ctx_get (s_heap s') (s_ctx s') n = ctx_get h c n).
  { intros n. rewrite (ctx_get_plain _ _ o _ Eo' K). rewrite (ctx_get_plain _ _ o _ Eo K). apply dget_keep; [exact SM|].
    rewrite <- (ctx_get_plain _ _ o _ Eo K). apply A2. }
  assert (Do : forall e x, deref h e = Some x -> deref (s_heap s') e = Some x).
  { intros [e|e] x; cbn; [auto|]. rewrite Dl. intros E. rewrite nth_error_app1; [exact E|]. eapply nth_lt; eauto. }
  assert (Rs : forall n e x, resolves h c n e x -> resolves (s_heap s') (s_ctx s') n e x).
  { intros n e x (E & y & D & Y). unfold resolves. rewrite G. eauto. }
  constructor; unfold senv_of.
  - exists o. auto.
  - intros n. rewrite G. apply A2.
  - intros n P. apply A3 in P. cbn in *. destruct P as [E|(e & x & E & X)]; [left; now rewrite G|right; exists e, x; auto].
  - intros n T. apply A4 in T as (d & t & E). exists d, t. auto.
  - intros n m M. destruct (A5 n m M) as (e & e' & x & mp & E & NM & Gm).
    exists e, e', x, mp. split; [now apply Rs|]. split.
    + destruct x; cbn in *; rewrite ?Us, ?Un, ?Pr; exact NM.
    + rewrite (dget_keep h); [exact Gm|exact SM|congruence].
  - intros n L. apply A6 in L as (d & E). exists d. auto.
  - intros n P. apply A7 in P. cbn in *. destruct P as [E|(e & x & E & X)]; [left; now rewrite G|right; exists e, x; auto].
  - intros n Fr. apply A8 in Fr as (o2 & a & m & E & T & M & Gm). rewrite Eo in E. injection E as <-.
    destruct (SM a m M) as (m' & M' & X & _). exists o, a, m'. rewrite X by discriminate.
    split; [exact Eo'|]. split; [exact T|]. rewrite X in M' by discriminate. auto.
  - intros n Ud. rewrite G. auto.
  - intros n O. apply A10 in O. cbn in *. destruct O as [O|(NB & d & t' & E & O)]; [now left|right]. split; [exact NB|]. exists d, t'. auto.
  - exact St.
Qed.
Lemma in_scope_enter sc s ws o h1 : in_scope sc s ws -> nth_error (h_ctxs (s_heap s)) (s_ctx s) = Some o ->
  ctx_stack (s_heap s) (s_ctx s) = Some (h1, cx_map o) -> in_scope (enter sc) (with_heap h1 s) ws.
Proof.
  intros I Eo ST. unfold ctx_stack, new_chained, new_map in ST. rewrite Eo in ST. injection ST as <-.
  set (h0 := with_maps (h_maps (s_heap s) ++ [[]]) (s_heap s)).
  set (k := length (h_maps (s_heap s))).
  assert (SM : same_maps None (s_heap s) h0) by (eapply same_maps_more; reflexivity).
  assert (I0 : in_scope sc (with_heap h0 s) ws).
  { eapply in_scope_keep; [exact I|exact Eo|exact Eo|exact SM| | | | |apply stands_heap, I]; try reflexivity. exists []. now rewrite app_nil_r. }
  assert (K : forall p, cx_kind o <> KStack p) by (destruct (sc_context _ _ _ I) as (o1 & E1 & K); rewrite Eo in E1; injection E1 as <-; exact K).
  set (h2 := ctx_put_map h0 (s_ctx s) (DChained (cx_map o) k)).
  assert (Eo2 : nth_error (h_ctxs h2) (s_ctx s) = Some (mkCtx (cx_kind o) (cx_path o) (DChained (cx_map o) k))) by (apply ctx_put_map_ctx; exact Eo).
  assert (M2 : h_maps h2 = h_maps h0) by apply ctx_put_map_maps.
  assert (D2 : h_decls h2 = h_decls h0) by apply ctx_put_map_decls.
  assert (Nk : nth_error (h_maps h0) k = Some []) by (apply nth_app_new).
  assert (X2 : h_uses h2 = h_uses h0 /\ h_units h2 = h_units h0 /\ h_progs h2 = h_progs h0).
  { unfold h2, ctx_put_map. destruct (nth_error (h_ctxs h0) (s_ctx s)); auto. }
  destruct X2 as (U2 & V2 & P2). fold h0 in Eo2.
  assert (G : forall n, ctx_get h2 (s_ctx s) n = ctx_get h0 (s_ctx s) n).
  { intros n. rewrite (ctx_get_plain _ _ _ _ Eo2 K). rewrite (ctx_get_plain h0 _ o _ Eo K). cbn [cx_map dget].
    unfold impl_get. rewrite M2, Nk. cbn. now apply dget_same_maps. }
  assert (Dr : forall e, deref h2 e = deref h0 e) by (intros [e|e]; cbn; rewrite ?D2; reflexivity).
  assert (Rs : forall n e x, resolves h0 (s_ctx s) n e x -> resolves h2 (s_ctx s) n e x).
  { intros n e x (E & y & D & Y). unfold resolves. rewrite G, Dr. eauto. }
  fold h2. clear I SM. clearbody h0.
  destruct I0 as [A1 A2 A3 A4 A5 A6 A7 A8 A9 A10 A11]. unfold senv_of in *. cbn [with_heap s_heap s_ctx] in *.
  constructor; unfold senv_of; cbn [with_heap s_heap s_ctx enter known free undeclared ordinal].
  - eexists. split; [exact Eo2|exact K].
  - intros n. rewrite G. apply A2.
  - intros n P. apply A3 in P. cbn in *. destruct P as [E|(e & x & E & X)]; [left; now rewrite G|right; exists e, x; auto].
  - intros n T. apply A4 in T as (d & t & E). exists d, t. auto.
  - intros n m M. destruct (A5 n m M) as (e & e' & x & mp & E & NM & Gm).
    exists e, e', x, mp. split; [now apply Rs|]. split.
    + destruct x; cbn in *; rewrite ?U2, ?V2, ?P2; exact NM.
    + rewrite <- Gm. now apply dget_same_maps.
  - intros n L. apply A6 in L as (d & E). exists d. auto.
  - intros n P. apply A7 in P. cbn in *. destruct P as [E|(e & x & E & X)]; [left; now rewrite G|right; exists e, x; auto].
  - intros n _. eexists _, k, []. split; [exact Eo2|]. split; [reflexivity|]. split; [|reflexivity]. rewrite M2. exact Nk.
  - intros n Ud. rewrite G. auto.
  - intros n O. apply A10 in O. cbn in *. destruct O as [O|(NB & d & t' & E & O)]; [now left|right]. split; [exact NB|]. exists d, t'. auto.
  - now apply stands_heap.
Qed.
Lemma leave_outer a b : scope_le (leave a b) a.
Proof.
  unfold scope_le, leave. cbn. repeat match goal with |- _ /\ _ => split end; intros; try tauto.
  destruct H as (d & d' & H & _). eauto.
Qed.
Lemma leave_inner a b : scope_le (leave a b) b.
Proof.
  unfold scope_le, leave. cbn. repeat match goal with |- _ /\ _ => split end; intros; try tauto.
  destruct H as (d & d' & _ & H). eauto.
Qed.
Lemma context_anchored s : parser_context s -> anchored s.
Proof. intros (o & E & K). exists o. auto. Qed.
Lemma d_scoped {A B} (p : prog A) (k : A -> prog B) sc sc2 s Q Post ws ws' : in_scope sc s ws -> evolves p ->
  (forall s1, in_scope (enter sc) s1 ws -> wp p s1 (fun a s2 => Post a /\ in_scope sc2 s2 ws')) ->
  (forall a s3, Post a -> in_scope (leave sc sc2) s3 ws' -> wp (k a) s3 Q) ->
  wp (Bind (Scoped p) k) s Q.
Proof.
  intros I Ev H K. destruct (sc_context _ _ _ I) as (o & Eo & Ko).
  assert (exists h1, ctx_stack (s_heap s) (s_ctx s) = Some (h1, cx_map o)) as (h1 & ST).
  { unfold ctx_stack, new_chained, new_map. rewrite Eo. eauto. }
  pose proof (in_scope_enter _ _ _ _ _ I Eo ST) as I1. specialize (H _ I1).
  apply wp_elim in H as (a & s2 & R & Pa & I2).
  assert (V : evolved (with_heap h1 s) s2) by (eapply Ev; [apply context_anchored, I1|exact R]).
  destruct (evolved_scoped s o h1 _ s2 Eo ST V eq_refl) as (V3 & SM & Or).
  apply wp_bind. eapply wp_run; [cbn [run]; rewrite ST, R; reflexivity|]. cbn beta. apply K; [exact Pa|].
  set (h2 := ctx_restore (s_heap s2) (s_ctx s) (cx_map o)) in *.
  destruct Or as [[Ec E2]|E2].
  - eapply in_scope_le; [apply leave_outer|]. eapply in_scope_keep; [exact I|exact Eo|exact E2|exact SM|apply V3|apply V3|apply V3|apply V3|].
    apply stands_heap, I2.
  - eapply in_scope_le; [apply leave_inner|]. eapply in_scope_calm; [exact I2| |apply stands_heap, I2].
    assert (X2 : h_uses h2 = h_uses (s_heap s2) /\ h_units h2 = h_units (s_heap s2) /\ h_progs h2 = h_progs (s_heap s2)).
    { unfold h2, ctx_restore, ctx_put_map. destruct (nth_error (h_ctxs (s_heap s2)) (s_ctx s)); auto. }
    destruct X2 as (X2 & X3 & X4).
    unfold calm. cbn [with_heap s_heap s_ctx]. repeat split; auto; [apply ctx_put_map_maps|apply ctx_put_map_decls].
Qed.

(** ** Statements *)
Lemma d_compound {B} m sp l (k : sbody -> prog B) sc s Q after rest : in_scope sc s (write_body sp (SCompound l) ++ after :: rest) ->
  length (write_body sp (SCompound l)) <= m -> good_body sp (known sc) (SCompound l) after -> may_declare sc (body_vars (SCompound l)) ->
  (forall b s1, bare_body b = bare_body (SCompound l) -> in_scope (declare (body_vars (SCompound l)) sc) s1 (after :: rest) -> wp (k b) s1 Q) ->
  wp (Bind (parse_compound_stmt (recs_at m)) k) s Q.
Proof.
  intros I L G [ND Md] K. apply wp_bind. eapply wp_conseq.
  - apply (compound_at text sp (senv_of s) m l after L).
    + eapply weak_body; [apply (in_scope_weak _ _ _ I)|exact G].
    + constructor; try apply I.
      * split; [split; [|split]|split]; intros; try tauto; auto.
      * rewrite Forall_forall. intros n J. apply (sc_free _ _ _ I), (Md n J).
      * exact ND.
  - intros b s1 (Hb & St & Gr). apply K; [exact Hb|]. eapply in_scope_grown; [exact I|exact Gr|exact St].
Qed.
Lemma d_stmts {B} m sp x term l (k : list stmt -> prog B) sc s Q rest :
  In (wkey x) stmt_ends -> existsb (weqb (wkey x)) starters = false ->
  (term = kw x \/ exists a b, In x [a; b] /\ term = p_some [kw a; kw b] /\
     existsb (weqb (wkey a)) starters = false /\ existsb (weqb (wkey b)) starters = false) ->
  in_scope sc s (semicolons (map (write_stmt sp) l) ++ last_semi sp ++ wkey x :: rest) ->
  length (semicolons (map (write_stmt sp) l)) < m ->
  each (fun last s => good_stmt sp (known sc) s (behind sp last (wkey x))) l -> may_declare sc (flat_map handler_vars l) ->
  (forall l' s1, map bare_stmt l' = map bare_stmt l -> in_scope (declare (flat_map handler_vars l) sc) s1 (wkey x :: rest) -> wp (k l') s1 Q) ->
  wp (Bind (parse_stmt_list (recs_at m) term) k) s Q.
Proof.
  intros Ix Nx Ht I L G [ND Md] K. apply wp_bind. eapply wp_conseq.
  - apply (stmts_at text sp (senv_of s) m x term l Ix Nx Ht L).
    + revert G. apply each_imp. intros b st _. apply weak_stmt. apply (in_scope_weak _ _ _ I).
    + constructor; try apply I.
      * split; [split; [|split]|split]; intros; try tauto; auto.
      * rewrite Forall_forall. intros n J. apply (sc_free _ _ _ I), (Md n J).
      * exact ND.
  - intros b s1 (Hb & St & Gr). apply K; [exact Hb|]. eapply in_scope_grown; [exact I|exact Gr|exact St].
Qed.
End WithUnicode.
