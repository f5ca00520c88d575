(** States that differ in the variables of exception handlers declared since. *)
From Coq Require Import String List NArith Bool Arith Lia.
From Verif Require Import ListUtil Runes UnicodeFacts Token Tokenizer LexSpec LexShape LexFacts LexMain Ext ExtMain
  Ast Heap MapSpec MapFacts MapMain Prog ParseSpec Parser RunFacts ExprSpec WpFacts ExprFacts StmtSpec.
Import ListNotations.
Local Open Scope list_scope.

Section WithUnicode.
Context {U : Unicode} {UOK : UnicodeOk U}.

Notation words := (list (ttype * gostring)).

(** ** Expressions where more names are known *)
Definition env_le (a b : env) : Prop :=
  (forall n, plain_name a n -> plain_name b n) /\ (forall n, type_name a n <-> type_name b n) /\
  (forall n m, (exists d d', member a n m d d') -> exists d d', member b n m d d').

(** What is known of names in [a] holds in [b]. *)
Definition env_weak (a b : env) : Prop :=
  (forall n, plain_name a n -> plain_name b n) /\ (forall n, type_name a n -> type_name b n) /\
  (forall n m, (exists d d', member a n m d d') -> exists d d', member b n m d d') /\
  (forall n, plain_name a n -> type_name b n -> type_name a n).
Lemma env_le_weak a b : env_le a b -> env_weak a b.
Proof.
  intros (LP & LT & LM). split; [exact LP|]. split; [intros n; apply LT|]. split; [exact LM|]. intros n _. apply LT.
Qed.
Section Weak.
Context (a b : env) (LE : env_weak a b).
Lemma weak_name q : good_name a q -> good_name b q.
Proof.
  destruct LE as (LP & LT & LM & _). unfold good_name. destruct (q_ns q); [apply LM|]. intros [P|T]; [left; auto|right; now apply LT].
Qed.
Fixpoint weak_expr (e : expr) : good_expr a e -> good_expr b e
with weak_sexpr (e : sexpr) : good_sexpr a e -> good_sexpr b e
with weak_term (e : term) : good_term a e -> good_term b e
with weak_factor (e : factor) : good_factor a e -> good_factor b e
with weak_desig (e : desig) : good_desig a e -> good_desig b e
with weak_item (e : ditem) : good_item a e -> good_item b e.
Proof.
  - destruct e as [s l]. cbn [good_expr]. intros [G1 G2]. split; [now apply weak_sexpr|].
    revert G2. induction l as [|r l IH]; [auto|]. cbn [all fold_right]. intros [[I G] G2]. split; [|now apply IH].
    split; [exact I|now apply weak_sexpr].
  - destruct e as [u s l]. cbn [good_sexpr]. intros (G0 & G1 & G2). split; [exact G0|]. split; [now apply weak_term|].
    revert G2. induction l as [|r l IH]; [auto|]. cbn [all fold_right]. intros [[I G] G2]. split; [|now apply IH].
    split; [exact I|now apply weak_term].
  - destruct e as [s l]. cbn [good_term]. intros [G1 G2]. split; [now apply weak_factor|].
    revert G2. induction l as [|r l IH]; [auto|]. cbn [all fold_right]. intros [[I G] G2]. split; [|now apply IH].
    split; [exact I|now apply weak_factor].
  - destruct e as [d args|d|v|v|v| |e|f|es|t e]; cbn [good_factor].
    + intros (G1 & G2 & G3). pose proof G1 as G0. split; [now apply weak_desig|]. split; [exact G2|]. destruct args as [es|]; [|auto].
      destruct G3 as (NE & Ges & NT). split; [exact NE|]. split.
      * clear NE. revert Ges. induction es as [|x es IH]; [auto|]. cbn [all fold_right]. intros [Gx Gr].
        split; [now apply weak_expr|now apply IH].
      * intros q E N T. apply (NT q E N). rewrite E in G0. destruct G0 as [G0 _]. unfold good_name in G0. rewrite N in G0.
        destruct G0 as [P|T']; [|exact T']. now apply LE.
    + apply weak_desig.
    + auto.
    + auto.
    + auto.
    + auto.
    + apply weak_expr.
    + apply weak_factor.
    + intros [NE Ges]. split; [exact NE|]. clear NE. revert Ges. induction es as [|x es IH]; [auto|].
      cbn [all fold_right]. intros [[G1 G2] Gr]. split; [|now apply IH]. split; [now apply weak_expr|].
      destruct x as [x1 [x2|]]; cbn [fst snd] in *; [now apply weak_expr|auto].
    + intros (G1 & G2 & G3 & G4). split; [exact G1|]. split; [exact G2|]. split; [now apply LE|now apply weak_expr].
  - destruct e as [q l]. cbn [good_desig]. intros [G1 G2]. split; [now apply weak_name|].
    revert G2. induction l as [|r l IH]; [auto|]. cbn [all fold_right]. intros [G G2]. split; [|now apply IH].
    now apply weak_item.
  - destruct e as [i|es|]; cbn [good_item]; auto. intros [NE Ges]. split; [exact NE|]. clear NE.
    revert Ges. induction es as [|x es IH]; [auto|]. cbn [all fold_right]. intros [Gx Gr].
    split; [now apply weak_expr|now apply IH].
Qed.
End Weak.

Section Mono.
Context (a b : env) (LE : env_le a b).
Lemma mono_name q : good_name a q -> good_name b q.
Proof. apply weak_name, env_le_weak, LE. Qed.
Lemma mono_expr e : good_expr a e -> good_expr b e.
Proof. apply weak_expr, env_le_weak, LE. Qed.
Lemma mono_desig e : good_desig a e -> good_desig b e.
Proof. apply weak_desig, env_le_weak, LE. Qed.
End Mono.

(** ** What stays *)
Definition senv_of (s : pst) : senv := senv_at (s_heap s) (s_ctx s).
Definition keys (l : list gostring) : list gostring := map to_lower l.
Record grown (vs : list gostring) (s s' : pst) : Prop := mkGrown {
  gr_context : parser_context s -> parser_context s';
  gr_env : parser_context s -> env_le (names (senv_of s)) (names (senv_of s'));
  gr_label : parser_context s -> forall n, a_label (senv_of s) n <-> a_label (senv_of s') n;
  gr_none : parser_context s -> forall n, no_label (senv_of s) n -> no_label (senv_of s') n;
  gr_vacant : parser_context s -> forall n, ~ In (to_lower n) (keys vs) -> vacant (s_heap s) (s_ctx s) n ->
    vacant (s_heap s') (s_ctx s') n;
  gr_get : parser_context s -> forall n, ~ In (to_lower n) (keys vs) ->
    ctx_get (s_heap s') (s_ctx s') n = ctx_get (s_heap s) (s_ctx s) n;
  gr_total : parser_context s -> (forall n, ctx_get (s_heap s) (s_ctx s) n <> LPanic) ->
    forall n, ctx_get (s_heap s') (s_ctx s') n <> LPanic;
  gr_types : parser_context s -> forall n d t, resolves (s_heap s) (s_ctx s) n d (NType t) ->
    resolves (s_heap s') (s_ctx s') n d (NType t);
  gr_deref : forall d x, deref (s_heap s) d = Some x -> deref (s_heap s') d = Some x }.

Lemma env_le_refl a : env_le a a.
Proof. split; [auto|]. split; [tauto|auto]. Qed.
Lemma env_le_trans a b c : env_le a b -> env_le b c -> env_le a c.
Proof.
  intros (A1 & A2 & A3) (B1 & B2 & B3). split; [auto|]. split; [|auto]. intros n. now rewrite A2.
Qed.
Lemma grown_trans v1 v2 s1 s2 s3 : grown v1 s1 s2 -> grown v2 s2 s3 -> grown (v1 ++ v2) s1 s3.
Proof.
  intros [A1 A2 A3 A4 A5 A6 A7 A8 A9] [B1 B2 B3 B4 B5 B6 B7 B8 B9]. unfold keys in *.
  constructor; [auto| | | | | |auto|auto|auto]; intros P; try specialize (B2 (A1 P)); try specialize (B3 (A1 P)); try specialize (B4 (A1 P));
    try specialize (B5 (A1 P)); try specialize (B6 (A1 P));
    try specialize (A2 P); try specialize (A3 P); try specialize (A4 P); try specialize (A5 P); try specialize (A6 P).
  - eapply env_le_trans; eauto.
  - intros n. now rewrite A3.
  - auto.
  - intros n I. unfold keys in I. rewrite map_app, in_app_iff in I. intros V.
    apply B5; [tauto|]. apply A5; [tauto|exact V].
  - intros n I. unfold keys in I. rewrite map_app, in_app_iff in I. rewrite B6 by tauto. apply A6. tauto.
Qed.
Lemma grown_nil vs s s' : grown [] s s' -> grown vs s s'.
Proof. intros [A1 A2 A3 A4 A5 A6 A7 A8 A9]. constructor; auto. Qed.

(** Nothing declared, but perhaps types to look up later. *)
Definition calm (s s' : pst) : Prop :=
  let h := s_heap s in let h' := s_heap s' in
  h_maps h' = h_maps h /\ h_decls h' = h_decls h /\ h_uses h' = h_uses h /\
  h_units h' = h_units h /\ h_progs h' = h_progs h /\
  nth_error (h_ctxs h') (s_ctx s') = nth_error (h_ctxs h) (s_ctx s).
Lemma quiet_calm s s' : quiet s s' -> calm s s'.
Proof. intros (A1 & A2 & A3 & A4 & A5 & A6 & A7 & A8 & A9 & A10). unfold calm. auto 10. Qed.
Lemma calm_trans s1 s2 s3 : calm s1 s2 -> calm s2 s3 -> calm s1 s3.
Proof.
  intros (A1 & A2 & A3 & A4 & A5 & A6) (B1 & B2 & B3 & B4 & B5 & B6). unfold calm.
  rewrite B1, B2, B3, B4, B5, B6. auto 10.
Qed.
Lemma calm_get s s' name : parser_context s -> calm s s' ->
  ctx_get (s_heap s') (s_ctx s') name = ctx_get (s_heap s) (s_ctx s) name.
Proof.
  intros (o & E & K) (A1 & _ & _ & _ & _ & A9).
  rewrite (ctx_get_plain _ _ o _ E K). rewrite E in A9. rewrite (ctx_get_plain _ _ o _ A9 K).
  now apply dget_same_maps.
Qed.
Lemma calm_resolves s s' n d x : parser_context s -> calm s s' ->
  resolves (s_heap s') (s_ctx s') n d x <-> resolves (s_heap s) (s_ctx s) n d x.
Proof.
  intros PC Q. unfold resolves. rewrite (calm_get _ _ _ PC Q).
  replace (deref (s_heap s') d) with (deref (s_heap s) d); [tauto|].
  destruct Q as (_ & A2 & _). destruct d; cbn; [reflexivity|]. now rewrite A2.
Qed.
Lemma calm_grown s s' : calm s s' -> grown [] s s'.
Proof.
  intros Q. pose proof Q as (A1 & A2 & A3 & A4 & A5 & A6).
  constructor.
  - intros (o & E & K). exists o. rewrite A6. auto.
  - intros PC. split; [|split]; cbn [names senv_of senv_at plain_name type_name member env_at].
    + intros n. rewrite (calm_get _ _ _ PC Q). intros [E|(d & x & E & N)]; [auto|right; exists d, x].
      split; [|exact N]. now apply (calm_resolves s s').
    + intros n. split; intros (d & t & E); exists d, t; now apply (calm_resolves s s').
    + intros n m (d & d' & x & mp & E & N & G). exists d, d', x, mp. split; [now apply (calm_resolves s s')|]. split.
      * destruct x; cbn in *; rewrite ?A3, ?A4, ?A5; exact N.
      * rewrite <- G. apply dget_same_maps, A1.
  - intros PC n. unfold senv_of. cbn [a_label senv_at]. split; intros (d & E); exists d; now apply (calm_resolves s s').
  - intros PC n. unfold senv_of. cbn [no_label senv_at]. rewrite (calm_get _ _ _ PC Q). intros [E|(d & x & E & N)]; [auto|right; exists d, x].
    split; [|exact N]. now apply (calm_resolves s s').
  - intros PC n _ (o & a & m & E & T & M & G). exists o, a, m. rewrite A6, A1. auto.
  - intros PC n _. now apply calm_get.
  - intros PC T n. rewrite (calm_get _ _ _ PC Q). apply T.
  - intros PC n d t. now apply (calm_resolves s s').
  - intros [d|d] x; cbn; [auto|]. now rewrite A2.
Qed.
Lemma quiet_grown s s' : quiet s s' -> grown [] s s'.
Proof. intros Q. now apply calm_grown, quiet_calm. Qed.

(** ** The declaration of a handler's variable *)
Lemma found_stays h h' m n k :
  (forall a d, impl_get h a n = LFound d -> exists d', impl_get h' a n = LFound d') ->
  (forall a, impl_get h a n = LNil -> impl_get h' a n = LNil \/ exists d', impl_get h' a n = LFound d') ->
  (dget h m n = LFound k -> exists d', dget h' m n = LFound d') /\
  (dget h m n = LNil -> dget h' m n = LNil \/ exists d', dget h' m n = LFound d').
Proof.
  intros F N. induction m as [a|p a IH|ms IH| |] using dmap_ind'; cbn [dget].
  - split; [apply F|apply N].
  - destruct (impl_get h a n) as [|d|] eqn:E.
    + destruct (N a E) as [->|(d' & ->)]; [exact IH|]. split; eauto.
    + destruct (F a d E) as (d' & ->). split; [eauto|discriminate].
    + split; discriminate.
  - change ((dget h (DComposite ms) n = LFound k -> exists d', dget h' (DComposite ms) n = LFound d') /\
      (dget h (DComposite ms) n = LNil -> dget h' (DComposite ms) n = LNil \/ exists d', dget h' (DComposite ms) n = LFound d')).
    rewrite !dget_composite. induction IH as [|m ms [IH1 IH2] _ IHms]; cbn [map first_found]; [split; [discriminate|auto]|].
    destruct (dget h m n) as [|d|] eqn:E.
    + destruct (IH2 eq_refl) as [->|(d' & ->)]; [exact IHms|]. split; eauto.
    + split; [|discriminate]. intros [= ->]. destruct (IH1 eq_refl) as (d' & ->). eauto.
    + split; discriminate.
  - split; eauto.
  - split; discriminate.
Qed.

(** Other declarations. *)
Definition puts (l : list (ident * dref)) (m : mapobj) : mapobj :=
  fold_left (fun m p => mput (to_lower (i_name (fst p))) (Some (snd p)) m) l m.
Lemma puts_other l : forall m k, ~ In k (map (fun p => to_lower (i_name (fst p))) l) -> mget k (puts l m) = mget k m.
Proof.
  induction l as [|[i d] l IH]; intros m k N; [reflexivity|]. cbn [puts fold_left fst snd map] in *. fold (puts l).
  change (fold_left _ l ?x) with (puts l x). rewrite IH by (intros I; apply N; now right). apply mget_put_neq.
  intros E. apply N. left. auto.
Qed.
Lemma puts_in l : forall m i d, NoDup (map (fun p => to_lower (i_name (fst p))) l) -> In (i, d) l ->
  mget (to_lower (i_name i)) (puts l m) = Some (Some d).
Proof.
  induction l as [|[j e] l IH]; intros m i d N I; [destruct I|]. cbn [puts fold_left fst snd map] in *.
  change (fold_left _ l ?x) with (puts l x). apply NoDup_cons_iff in N as [N1 N2].
  destruct I as [[= -> ->]|I].
  - rewrite puts_other by exact N1. apply mget_put_eq.
  - now apply IH.
Qed.
Lemma impl_set_puts a l : forall h m, nth_error (h_maps h) a = Some m ->
  Forall (fun p => mget (to_lower (i_name (fst p))) m = None) l -> NoDup (map (fun p => to_lower (i_name (fst p))) l) ->
  exists M, impl_set h a l = SOk (with_maps M h) /\ nth_error M a = Some (puts l m) /\
    length M = length (h_maps h) /\ forall b, b <> a -> nth_error M b = nth_error (h_maps h) b.
Proof.
  induction l as [|[i d] l IH]; intros h m E F N.
  - exists (h_maps h). cbn [impl_set puts fold_left]. split; [now destruct h|]. auto.
  - inversion F as [|? ? F1 F2]; subst. cbn [fst map] in *. apply NoDup_cons_iff in N as [N1 N2].
    cbn [impl_set]. rewrite E. unfold regularize. rewrite F1.
    assert (L : a < length (h_maps h)) by (eapply nth_lt; eauto).
    destruct (IH (with_maps (set_nth a (mput (to_lower (i_name i)) (Some d) m) (h_maps h)) h) (mput (to_lower (i_name i)) (Some d) m))
      as (M & I1 & I2 & I3 & I4).
    + cbn [h_maps with_maps]. now apply nth_set_nth_eq.
    + rewrite Forall_forall in *. intros p Ip. rewrite mget_put_neq; [now apply F2|]. intros Ek.
      apply N1. rewrite <- Ek. change (to_lower (i_name (fst p))) with ((fun p : ident * dref => to_lower (i_name (fst p))) p). now apply in_map.
    + exact N2.
    + exists M. split; [rewrite I1; now destruct h|]. split; [exact I2|]. cbn [h_maps with_maps] in *. split.
      * rewrite I3. apply set_nth_length.
      * intros b Nb. rewrite (I4 b Nb). apply nth_set_nth_neq. congruence.
Qed.

Definition decl_name (d : decl) : gostring := i_name (d_ident d).
Record set_facts (ds : list decl) (s : pst) (h' : heap) : Prop := mkSetFacts {
  sf_ctxs : h_ctxs h' = h_ctxs (s_heap s);
  sf_uses : h_uses h' = h_uses (s_heap s);
  sf_units : h_units h' = h_units (s_heap s);
  sf_progs : h_progs h' = h_progs (s_heap s);
  sf_decls : h_decls h' = h_decls (s_heap s) ++ ds;
  sf_refs : h_refs h' = h_refs (s_heap s);
  sf_same : forall b n, ~ In (to_lower n) (keys (map decl_name ds)) -> impl_get h' b n = impl_get (s_heap s) b n;
  sf_get : forall n, ~ In (to_lower n) (keys (map decl_name ds)) ->
    ctx_get h' (s_ctx s) n = ctx_get (s_heap s) (s_ctx s) n;
  sf_new : forall x n, In x ds -> to_lower n = to_lower (decl_name x) ->
    exists d, ctx_get h' (s_ctx s) n = LFound d /\ deref h' d = Some x;
  sf_found : forall b n d, impl_get (s_heap s) b n = LFound d -> exists d', impl_get h' b n = LFound d';
  sf_nil : forall b n, impl_get (s_heap s) b n = LNil -> impl_get h' b n = LNil \/ exists d', impl_get h' b n = LFound d';
  sf_vacant : forall n, ~ In (to_lower n) (keys (map decl_name ds)) -> vacant (s_heap s) (s_ctx s) n -> vacant h' (s_ctx s) n }.
Lemma map_combine_fst {A B} (l1 : list A) (l2 : list B) : length l1 = length l2 -> map fst (combine l1 l2) = l1.
Proof. revert l2. induction l1 as [|a l1 IH]; intros [|b l2] L; cbn in *; try lia; auto. f_equal. apply IH. lia. Qed.
Lemma alloc_keys h ds : map (fun p => to_lower (i_name (fst p))) (snd (alloc_decls h ds)) = keys (map decl_name ds).
Proof.
  unfold alloc_decls. cbn [snd]. rewrite <- (map_map fst (fun i => to_lower (i_name i))).
  rewrite map_combine_fst by (now rewrite !map_length, seq_length). unfold keys, decl_name. now rewrite !map_map.
Qed.
Lemma alloc_in h ds x : In x ds -> exists d, In (d_ident x, d) (snd (alloc_decls h ds)) /\
  deref (fst (alloc_decls h ds)) d = Some x.
Proof.
  intros I. unfold alloc_decls. cbn [fst snd]. apply In_nth_error in I as (k & E).
  exists (Ptr (length (h_decls h) + k)). split.
  - assert (L : k < length ds) by (eapply nth_lt; eauto).
    apply (nth_error_In _ k).
    assert (G : forall (l1 : list ident) (l2 : list dref) k a b, nth_error l1 k = Some a -> nth_error l2 k = Some b ->
      nth_error (combine l1 l2) k = Some (a, b)).
    { induction l1 as [|x1 l1 IH]; intros [|x2 l2] [|k'] a b A B; cbn in *; try discriminate; [congruence|auto]. }
    apply G; [now apply map_nth_error|]. apply map_nth_error.
    rewrite (nth_error_nth' _ 0) by (now rewrite seq_length). now rewrite seq_nth.
  - cbn. rewrite nth_error_app2 by lia. now replace (length (h_decls h) + k - length (h_decls h)) with k by lia.
Qed.
Lemma set_core s ds : parser_context s -> Forall (vacant (s_heap s) (s_ctx s)) (map decl_name ds) -> ds <> [] ->
  NoDup (keys (map decl_name ds)) -> exists h', run (set ds) s = OOk tt (with_heap h' s) /\ set_facts ds s h'.
Proof.
  intros (o & Ec & K) V NE ND. set (h := s_heap s) in *. set (c := s_ctx s) in *.
  assert (exists a m, target (cx_map o) = Some a /\ nth_error (h_maps h) a = Some m) as (a & m & T & M).
  { destruct ds as [|x ds]; [congruence|]. cbn [map] in V. inversion V as [|? ? (o' & a & m & E & T & M & _) _]; subst.
    rewrite Ec in E. injection E as <-. eauto. }
  assert (Va : forall x, In x ds -> mget (to_lower (decl_name x)) m = None).
  { intros x I. rewrite Forall_forall in V. destruct (V (decl_name x) (in_map _ _ _ I)) as (o' & a' & m' & E & T' & M' & G).
    rewrite Ec in E. injection E as <-. rewrite T in T'. injection T' as <-. rewrite M in M'. now injection M' as <-. }
  pose proof (alloc_keys h ds) as AK. pose proof (alloc_in h ds) as AI.
  destruct (alloc_decls h ds) as [h1 l] eqn:Al. cbn [fst snd] in *.
  assert (E1 : h1 = with_decls (h_decls h ++ ds) h) by (unfold alloc_decls in Al; congruence).
  rewrite <- AK in ND.
  destruct (impl_set_puts a l h1 m) as (M' & I1 & I2 & I3 & I4).
  - now rewrite E1.
  - rewrite Forall_forall. intros p Ip.
    assert (J : In (to_lower (i_name (fst p))) (keys (map decl_name ds))).
    { rewrite <- AK. change (to_lower (i_name (fst p))) with ((fun p : ident * dref => to_lower (i_name (fst p))) p). now apply in_map. }
    unfold keys in J. rewrite map_map in J. apply in_map_iff in J as (x & <- & J). now apply Va.
  - exact ND.
  - exists (with_maps M' h1). split.
    { unfold set. cbn [run]. fold h c. unfold ctx_set. rewrite Ec. unfold map_set. rewrite Al.
      now rewrite (dset_impl _ _ a _ T), I1. }
    assert (Same : forall b n, ~ In (to_lower n) (keys (map decl_name ds)) -> impl_get (with_maps M' h1) b n = impl_get h b n).
    { intros b n N. unfold impl_get. cbn [h_maps with_maps]. destruct (Nat.eq_dec b a) as [->|Nb].
      - rewrite I2, M. unfold regularize. rewrite puts_other by (now rewrite AK). reflexivity.
      - rewrite (I4 b Nb), E1. reflexivity. }
    assert (Ec1 : nth_error (h_ctxs (with_maps M' h1)) c = Some o) by (rewrite E1; exact Ec).
    assert (New : forall x n, In x ds -> to_lower n = to_lower (decl_name x) ->
      exists d, impl_get (with_maps M' h1) a n = LFound d /\ deref (with_maps M' h1) d = Some x).
    { intros x n I L. destruct (AI x I) as (d & J & D). exists d. split.
      - unfold impl_get. cbn [h_maps with_maps]. rewrite I2. unfold regularize. rewrite L. unfold decl_name.
        now rewrite (puts_in l m _ d ND J).
      - now rewrite deref_maps. }
    assert (Dec : forall n, {In (to_lower n) (keys (map decl_name ds))} + {~ In (to_lower n) (keys (map decl_name ds))}).
    { intros n. apply in_dec, list_eq_dec, N.eq_dec. }
    assert (In_new : forall n, In (to_lower n) (keys (map decl_name ds)) -> exists x, In x ds /\ to_lower n = to_lower (decl_name x)).
    { intros n I. unfold keys in I. rewrite map_map in I. apply in_map_iff in I as (x & E & I). eauto. }
    constructor; try (rewrite E1; reflexivity).
    + exact Same.
    + intros n N. fold c. rewrite (ctx_get_plain _ _ o _ Ec K), (ctx_get_plain _ _ o _ Ec1 K).
      apply dget_impls. intros b. now apply Same.
    + intros x n I L. destruct (New x n I L) as (d & G & D). exists d. split; [|exact D]. fold c.
      rewrite (ctx_get_plain _ _ o _ Ec1 K). eapply dget_target_found; eauto.
    + intros b n d G. fold h in G. destruct (Dec n) as [I|N]; [|rewrite (Same b n N); eauto].
      destruct (Nat.eq_dec b a) as [->|Nb].
      * destruct (In_new n I) as (x & J & L). destruct (New x n J L) as (d' & G' & _). eauto.
      * unfold impl_get in *. cbn [h_maps with_maps]. rewrite (I4 b Nb), E1. eauto.
    + intros b n G. fold h in G. destruct (Dec n) as [I|N]; [|rewrite (Same b n N); eauto].
      destruct (Nat.eq_dec b a) as [->|Nb].
      * destruct (In_new n I) as (x & J & L). destruct (New x n J L) as (d' & G' & _). eauto.
      * unfold impl_get in *. cbn [h_maps with_maps]. rewrite (I4 b Nb), E1. eauto.
    + intros n N (o2 & a2 & m2 & E2 & T2 & M2 & G2). fold h in E2, M2. fold c in E2. rewrite Ec in E2. injection E2 as <-.
      rewrite T in T2. injection T2 as <-. rewrite M in M2. injection M2 as <-.
      exists o, a, (puts l m). split; [exact Ec1|]. split; [exact T|]. split; [exact I2|].
      now rewrite puts_other by (now rewrite AK).
Qed.

(** Declarations that are neither types nor namespaces nor labels. *)
Definition ordinary (x : dnode) : Prop := ~ is_namespace x /\ (forall t, x <> NType t) /\ x <> NLabel.
Lemma set_plain s ds : parser_context s -> Forall (vacant (s_heap s) (s_ctx s)) (map decl_name ds) ->
  NoDup (keys (map decl_name ds)) -> ds <> [] -> Forall (fun x => ordinary (d_node x)) ds ->
  (forall n, In (to_lower n) (keys (map decl_name ds)) -> plain_name (names (senv_of s)) n /\ no_label (senv_of s) n) ->
  exists h', run (set ds) s = OOk tt (with_heap h' s) /\ grown (map decl_name ds) s (with_heap h' s).
Proof.
  intros PC V ND NE O Pl. destruct (set_core s ds PC V NE ND) as (h' & R & F). exists h'. split; [exact R|]. clear R.
  destruct F as [F1 F2 F3 F4 F5 F6 F7 F8 F9 F10 F11 F12]. unfold senv_of in Pl.
  set (h := s_heap s) in *. set (c := s_ctx s) in *.
  assert (Do : forall e x, deref h e = Some x -> deref h' e = Some x).
  { intros [e|e] x; cbn; [auto|]. rewrite F5. intros E. rewrite nth_error_app1; [exact E|]. eapply nth_lt; eauto. }
  assert (Dec : forall n, {In (to_lower n) (keys (map decl_name ds))} + {~ In (to_lower n) (keys (map decl_name ds))}).
  { intros n. apply in_dec, list_eq_dec, N.eq_dec. }
  assert (New : forall n, In (to_lower n) (keys (map decl_name ds)) -> exists d x, resolves h' c n d x /\ ordinary x).
  { intros n I. unfold keys in I. rewrite map_map in I. apply in_map_iff in I as (x & E & I).
    destruct (F9 x n I (eq_sym E)) as (d & G & D). exists d, (d_node x). split; [split; eauto|].
    rewrite Forall_forall in O. now apply O. }
  assert (Rs : forall n e x, ~ In (to_lower n) (keys (map decl_name ds)) -> resolves h c n e x -> resolves h' c n e x).
  { intros n e x N (E & y & D & Y). unfold resolves. rewrite (F8 n N). eauto. }
  assert (Ri : forall n e x, resolves h' c n e x -> ~ ordinary x -> (forall e x, ctx_get h c n = LFound e -> deref h' e = Some x -> deref h e = Some x) -> resolves h c n e x).
  { intros n e x Rx N B. destruct (Dec n) as [I|I].
    - destruct (New n I) as (d & y & (G & o1 & D & Y) & Oy). destruct Rx as (E & o2 & D2 & X2).
      rewrite G in E. injection E as <-. rewrite D in D2. injection D2 as <-. congruence.
    - destruct Rx as (E & o2 & D2 & X2). rewrite (F8 n I) in E. split; [exact E|]. eauto. }
  assert (Tl : (forall n, ctx_get h c n <> LPanic) -> forall n, ctx_get h' c n <> LPanic).
  { intros T n. destruct (Dec n) as [I|I]; [|rewrite (F8 n I); apply T]. destruct (New n I) as (d & x & (G & _) & _). congruence. }
  assert (Nn : forall n e x, In (to_lower n) (keys (map decl_name ds)) -> resolves h c n e x -> ~ is_namespace x /\ (forall t, x <> NType t) /\ x <> NLabel).
  { intros n e x I (E & y & D & Y). destruct (Pl n I) as [[Pn|(e2 & x2 & (E2 & y2 & D2 & Y2) & NN & NT)] [L|(e3 & x3 & (E3 & y3 & D3 & Y3) & NL)]];
      unfold senv_at in *; cbn in *; try congruence.
    rewrite E in E2, E3. injection E2 as <-. injection E3 as <-. rewrite D in D2, D3. injection D2 as <-. injection D3 as <-.
    subst x2 x3 x. auto. }
  assert (Er : forall n e x, resolves h' c n e x -> ~ ordinary x -> exists o2, ctx_get h c n = LFound e /\ deref h' e = Some o2 /\ d_node o2 = x).
  { intros n e x Rx N. destruct (Dec n) as [I|I].
    - destruct (New n I) as (d & y & (G & o1 & D & Y) & Oy). destruct Rx as (E & o2 & D2 & X2).
      rewrite G in E. injection E as <-. rewrite D in D2. injection D2 as <-. congruence.
    - destruct Rx as (E & o2 & D2 & X2). rewrite (F8 n I) in E. eauto. }
  assert (Dw : forall e x, deref h' e = Some x -> deref h e = Some x \/ ordinary (d_node x)).
  { intros [e|e] x; cbn; [auto|]. rewrite F5. intros E. destruct (Nat.lt_ge_cases e (length (h_decls h))) as [L|L].
    - rewrite nth_error_app1 in E by exact L. auto.
    - rewrite nth_error_app2 in E by exact L. apply nth_error_In in E. rewrite Forall_forall in O. auto. }
  assert (Rb : forall n e x, resolves h' c n e x -> ~ ordinary x -> resolves h c n e x).
  { intros n e x Rx N. destruct (Er n e x Rx N) as (o2 & G & D & X). split; [exact G|]. destruct (Dw e o2 D) as [D'|D']; [eauto|congruence]. }
  constructor; unfold senv_of; cbn [s_heap s_ctx with_heap]; fold h c.
  - intros (o & E & K). exists o. cbn. rewrite F1. auto.
  - intros _. split; [|split]; cbn [names senv_at plain_name type_name member env_at].
    + intros n H. destruct (Dec n) as [I|I].
      * right. destruct (New n I) as (d & x & Rx & (O1 & O2 & O3)). exists d, x. auto.
      * destruct H as [E|(e & x & E & N)]; [left; now rewrite F8|right; exists e, x; auto].
    + intros n. split; intros (e & t & E); exists e, t.
      * apply Rs; [|exact E]. intros I. destruct (Nn n e _ I E) as (_ & NT & _). now apply (NT t).
      * apply Rb; [exact E|]. intros (_ & NT & _). now apply (NT t).
    + intros n mb (e & e' & x & mp & E & NM & Gm).
      assert (NM' : namespace_map h' x mp) by (destruct x; cbn in *; rewrite ?F2, ?F3, ?F4; exact NM).
      assert (L : ~ In (to_lower n) (keys (map decl_name ds))).
      { intros I. destruct (Nn n e _ I E) as (NN & _). apply NN. destruct x; cbn in NM; try contradiction; exact Logic.I. }
      destruct (proj1 (found_stays h h' mp mb e' (fun a d => F10 a mb d) (fun a => F11 a mb)) Gm) as (d2 & G2).
      exists e, d2, x, mp. auto.
  - intros _ n. cbn [a_label senv_at]. split; intros (e & E); exists e.
    + apply Rs; [|exact E]. intros I. now destruct (Nn n e _ I E) as (_ & _ & NL).
    + apply Rb; [exact E|]. intros (_ & _ & NL). now apply NL.
  - intros _ n H. cbn [no_label senv_at] in *. destruct (Dec n) as [I|I].
    + right. destruct (New n I) as (d & x & Rx & (O1 & O2 & O3)). exists d, x. auto.
    + destruct H as [E|(e & x & E & N)]; [left; now rewrite F8|right; exists e, x; auto].
  - intros _ n NI Vn. now apply F12.
  - intros _ n NI. now apply F8.
  - intros _. exact Tl.
  - intros _ n d t E. apply Rs; [|exact E]. intros I. destruct (Nn n d _ I E) as (_ & NT & _). now apply (NT t).
  - exact Do.
Qed.
Lemma set_handler s i : parser_context s -> vacant (s_heap s) (s_ctx s) (i_name i) ->
  (forall n, same_name n (i_name i) -> plain_name (names (senv_of s)) n /\ no_label (senv_of s) n) ->
  exists h', run (set [mkDecl i NHandler]) s = OOk tt (with_heap h' s) /\ grown [i_name i] s (with_heap h' s).
Proof.
  intros PC V Pl. apply (set_plain s [mkDecl i NHandler]); [exact PC|constructor; [exact V|constructor]| | | |].
  - cbn. constructor; [intros []|constructor].
  - discriminate.
  - constructor; [|constructor]. split; [intros []|]. split; discriminate.
  - intros n [E|[]]. apply Pl. unfold same_name. symmetry. exact E.
Qed.

End WithUnicode.
