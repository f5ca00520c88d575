(** What the parts of a program with units leave as it was, and the scopes that they find. *)
From Coq Require Import String List Arith NArith Bool Lia.
From Verif Require Import ListUtil Runes UnicodeFacts Token Tokenizer LexSpec LexShape LexFacts LexMain Ext ExtMain Ast Heap Classes MapSpec MapFacts MapMain Prog Parser ParseSpec RunFacts
  ExprSpec WpFacts ExprFacts StmtSpec GrowFacts StmtFacts EvolveFacts EvolveParse Units UnitSpec UsesMain TermUnitSpec DeclSpec ScopeFacts DeclFacts TypeFacts SectionFacts DeclMain TermUnit UnitTextSpec UnitTextFacts UnitBodyFacts ProgramTextSpec.
Import ListNotations.
Local Open Scope list_scope.

Section WithUnicode.
Context {U : Unicode} {UOK : UnicodeOk U}.
Notation words := (list (ttype * gostring)).

(** ** The maps that a declaration map reads *)
Fixpoint reads (m : dmap) : list nat :=
  match m with
  | DImpl a => [a]
  | DChained p a => a :: reads p
  | DComposite ms => flat_map reads ms
  | DEmbedded | DNil => []
  end.
Lemma dget_reads h h' m n : (forall a, In a (reads m) -> impl_get h' a n = impl_get h a n) -> dget h' m n = dget h m n.
Proof.
  induction m as [a|p a IH|ms IH| |] using dmap_ind'; cbn [reads]; intros H; try reflexivity.
  - cbn [dget]. apply H. now left.
  - cbn [dget]. rewrite H by (now left). rewrite IH; [reflexivity|]. intros b J. apply H. now right.
  - rewrite !dget_composite. f_equal. apply map_ext_in. intros m J. rewrite Forall_forall in IH. apply IH; [exact J|].
    intros a Ja. apply H. apply in_flat_map. eauto.
Qed.
Lemma reads_chain l : forall m a, In a (reads (chain l m)) -> In a l \/ In a (reads m).
Proof.
  induction l as [|b l IH]; intros m a J; [now right|]. cbn [chain fold_left] in J. apply IH in J as [J|J]; [left; now right|].
  destruct J as [<-|J]; [left; now left|now right].
Qed.
Lemma target_reads m a : target m = Some a -> In a (reads m).
Proof.
  revert a. induction m as [b|p b IH|ms IH| |] using dmap_ind'; cbn [target reads]; intros a E; try discriminate E.
  - injection E as ->. now left.
  - injection E as ->. now left.
  - destruct ms as [|m ms]; [discriminate E|]. inversion IH as [|? ? H _]. subst. cbn [flat_map]. apply in_or_app. left. now apply H.
Qed.
(** A name that is nowhere *)
Lemma fresh_name h : exists n, embedded_get n = None /\ forall a m, nth_error (h_maps h) a = Some m -> mget (to_lower n) m = None.
Proof.
  set (long := fun m : mapobj => fold_right (fun e k => length (fst e : gostring) + k) 0 m).
  set (k := fold_right (fun m k => long m + k) 0 (h_maps h)). exists (repeat 0%N (100 + k)). split.
  - unfold embedded_get. assert (X : forall i, find_index (fun e : ekind * gostring => runes_equal (to_upper (snd e)) (to_upper (repeat 0%N (100 + k)))) i embedded = None).
    { assert (Y : Forall (fun e : ekind * gostring => length (snd e) < 100) embedded).
      { unfold embedded. cbn. repeat constructor; cbn; lia. }
      induction Y as [|e l He Y IH]; intros i; [reflexivity|]. cbn [find_index]. destruct (runes_equal _ _) eqn:E; [|apply IH].
      apply runes_equal_eq in E. apply (f_equal (@length _)) in E. unfold to_upper in E. rewrite !map_length, repeat_length in E. lia. }
    now rewrite X.
  - intros a m E. assert (L : long m <= k).
    { unfold k. clear k. revert a E. induction (h_maps h) as [|m' l IH]; intros [|a] E; try discriminate E; cbn [fold_right].
      - injection E as ->. lia.
      - specialize (IH a E). lia. }
    assert (L2 : long m < length (to_lower (repeat 0%N (100 + k)))) by (unfold to_lower; rewrite map_length, repeat_length; lia).
    revert L2. generalize (to_lower (repeat 0%N (100 + k))). intros n. clear. induction m as [|[k' v] m IH]; intros L; [reflexivity|].
    cbn [mget]. cbn [long fold_right fst] in L. destruct (runes_equal n k') eqn:E.
    + apply runes_equal_eq in E. subst. lia.
    + apply IH. unfold long. lia.
Qed.
Lemma reads_total h m : (forall n, dget h m n <> LPanic) -> forall a, In a (reads m) -> a < length (h_maps h).
Proof.
  intros T. destruct (fresh_name h) as (n & Ne & Nm). specialize (T n).
  assert (Z : forall a, impl_get h a n <> LPanic -> a < length (h_maps h) /\ impl_get h a n = LNil).
  { intros a. unfold impl_get. destruct (nth_error (h_maps h) a) as [mp|] eqn:E; [|congruence]. intros _.
    split; [eapply nth_lt; eauto|]. unfold regularize. now rewrite (Nm a mp E). }
  cut (dget h m n = LNil /\ forall a, In a (reads m) -> a < length (h_maps h)); [now intros []|].
  induction m as [a|p a IH|ms IH| |] using dmap_ind'; cbn [dget reads] in *.
  - destruct (Z a T). split; [auto|]. intros b [<-|[]]. auto.
  - assert (X : impl_get h a n <> LPanic) by (intros X; now rewrite X in T). destruct (Z a X) as [L E]. rewrite E in T |- *.
    destruct (IH T) as [E1 H]. split; [exact E1|]. intros b [<-|J]; auto.
  - change (dget h (DComposite ms) n <> LPanic) in T. change (dget h (DComposite ms) n = LNil /\ forall a, In a (flat_map reads ms) -> a < length (h_maps h)).
    rewrite dget_composite in *. induction IH as [|m ms H _ IHms]; [split; [reflexivity|intros a []]|]. cbn [map first_found flat_map] in *.
    destruct (dget h m n) eqn:E; [|destruct H as [H _]; [discriminate|discriminate H]|congruence].
    destruct H as [_ H]; [discriminate|]. destruct (IHms T) as [E1 H1]. split; [exact E1|]. intros a J. apply in_app_or in J as [J|J]; auto.
  - rewrite Ne. split; [reflexivity|intros a []].
  - congruence.
Qed.

(** ** What is left as it was *)
Record frame (t cs us : nat -> Prop) (h h' : heap) : Prop := mkFrame {
  fr_uses : forall a o, nth_error (h_uses h) a = Some o -> exists o', nth_error (h_uses h') a = Some o' /\
    u_ident o' = u_ident o /\ u_path o' = u_path o /\ (u_unit o = None \/ u_unit o' = u_unit o);
  fr_units : forall v o, nth_error (h_units h) v = Some o -> exists o', nth_error (h_units h') v = Some o' /\
    un_ident o' = un_ident o /\ (~ us v -> o' = o);
  fr_progs : h_progs h' = h_progs h;
  fr_decls : exists l, h_decls h' = h_decls h ++ l;
  fr_maps : forall a m, nth_error (h_maps h) a = Some m ->
    exists m', nth_error (h_maps h') a = Some m' /\ (~ t a -> m' = m) /\ keeps m m';
  fr_maplen : length (h_maps h) <= length (h_maps h');
  fr_ctxs : forall c o, nth_error (h_ctxs h) c = Some o -> ~ cs c -> nth_error (h_ctxs h') c = Some o;
  fr_ctxlen : length (h_ctxs h) <= length (h_ctxs h');
  fr_kinds : forall c o p, nth_error (h_ctxs h) c = Some o -> cx_kind o = KUnit p ->
    exists o', nth_error (h_ctxs h') c = Some o' /\ cx_kind o' = KUnit p /\ cx_path o' = cx_path o }.
Lemma fr_unit t cs us h h' v o : frame t cs us h h' -> nth_error (h_units h) v = Some o -> ~ us v -> nth_error (h_units h') v = Some o.
Proof. intros F E N. destruct (fr_units _ _ _ _ _ F v o E) as (o' & E' & _ & X). now rewrite <- (X N). Qed.
Definition nobody_at : nat -> Prop := fun _ => False.
Lemma frame_refl t cs us h : frame t cs us h h.
Proof.
  constructor; auto.
  - eauto 10.
  - eauto.
  - exists []. now rewrite app_nil_r.
  - intros a m E. exists m. split; [exact E|]. split; [auto|apply keeps_refl].
  - eauto.
Qed.
Lemma frame_trans t cs us t2 cs2 us2 h1 h2 h3 : frame t cs us h1 h2 -> frame t2 cs2 us2 h2 h3 ->
  (forall a, a < length (h_maps h1) -> t2 a -> t a) -> (forall c, c < length (h_ctxs h1) -> cs2 c -> cs c) ->
  (forall v, v < length (h_units h1) -> us2 v -> us v) -> frame t cs us h1 h3.
Proof.
  intros [A1 A2 A4 (l1 & A5) A6 A7 A8 A9 A10] [B1 B2 B4 (l2 & B5) B6 B7 B8 B9 B10] T C V. constructor; try congruence; try lia.
  - intros a o E. destruct (A1 a o E) as (o1 & E1 & I1 & P1 & U1). destruct (B1 a o1 E1) as (o2 & E2 & I2 & P2 & U2).
    exists o2. split; [exact E2|]. split; [congruence|]. split; [congruence|]. destruct U1 as [U1|U1]; [now left|]. destruct U2 as [U2|U2]; [left|right]; congruence.
  - intros v o E. destruct (A2 v o E) as (o1 & E1 & I1 & S1). destruct (B2 v o1 E1) as (o2 & E2 & I2 & S2). exists o2. split; [exact E2|]. split; [congruence|].
    intros N. rewrite S2, S1; auto. intros X. apply N. apply V; [eapply nth_lt; eauto|exact X].
  - exists (l1 ++ l2). now rewrite B5, A5, app_assoc.
  - intros a m E. destruct (A6 a m E) as (m1 & E1 & S1 & K1). destruct (B6 a m1 E1) as (m2 & E2 & S2 & K2). exists m2. split; [exact E2|].
    split; [|eapply keeps_trans; eauto]. intros N. rewrite S2, S1; auto. intros X. apply N. apply T; [eapply nth_lt; eauto|exact X].
  - intros c o E N. apply B8; [now apply A8|]. intros X. apply N. apply C; [eapply nth_lt; eauto|exact X].
  - intros c o p E K. destruct (A10 c o p E K) as (o1 & E1 & K1 & P1). destruct (B10 c o1 p E1 K1) as (o2 & E2 & K2 & P2). exists o2. split; [exact E2|]. split; congruence.
Qed.
Lemma frame_weak t cs us (t2 cs2 us2 : nat -> Prop) h1 h2 : frame t cs us h1 h2 ->
  (forall a, a < length (h_maps h1) -> t a -> t2 a) -> (forall c, c < length (h_ctxs h1) -> cs c -> cs2 c) ->
  (forall v, v < length (h_units h1) -> us v -> us2 v) -> frame t2 cs2 us2 h1 h2.
Proof. intros F T C V. eapply frame_trans; [apply (frame_refl t2 cs2 us2)|exact F|auto|auto|auto]. Qed.
Lemma moved_frame uc u s s' : moved uc u s s' ->
  (forall o, nth_error (h_units (s_heap s)) u = Some o -> exists o', nth_error (h_units (s_heap s')) u = Some o' /\ un_ident o' = un_ident o) ->
  frame (fun a => ~ away a s) (fun c => c = s_ctx s \/ c = uc) (eq u) (s_heap s) (s_heap s').
Proof.
  intros [(l1 & A1) A2 A3 A4 A5 A6 A7 A8 A9 A10 A11] Hu. constructor; auto.
  - intros a o E. exists o. rewrite A1, nth_error_app1 by (eapply nth_lt; eauto). auto 10.
  - intros v o E. destruct (Nat.eq_dec v u) as [->|N].
    + destruct (Hu o E) as (o' & E' & I). exists o'. split; [exact E'|]. split; [exact I|]. intros X. now destruct X.
    + exists o. rewrite A2 by auto. auto.
  - intros a m E. destruct (A5 a m E) as (m' & E' & S & K). exists m'. split; [exact E'|]. split; [|exact K]. intros N. apply S.
    intros o Eo T. apply N. intros Aw. now apply (Aw o Eo).
  - intros c o p E K. destruct (A11 c o E) as (o' & E' & K' & P'). exists o'. split; [exact E'|]. split; congruence.
Qed.
Lemma deref_frame t cs us h h' q d : frame t cs us h h' -> deref h q = Some d -> deref h' q = Some d.
Proof.
  intros F. destruct (fr_decls _ _ _ _ _ F) as (more & E). destruct q; cbn; [auto|]. rewrite E. intros D. rewrite nth_error_app1; [exact D|]. eapply nth_lt; eauto.
Qed.
Lemma frame_get t cs us h h' a n : frame t cs us h h' -> ~ t a -> a < length (h_maps h) -> impl_get h' a n = impl_get h a n.
Proof.
  intros F N L. unfold impl_get. destruct (nth_error (h_maps h) a) as [m|] eqn:E; [|apply nth_error_None in E; lia].
  destruct (fr_maps _ _ _ _ _ F a m E) as (m' & -> & S & _). now rewrite S.
Qed.
Lemma found_frame t cs us h h' m n d : frame t cs us h h' -> dget h m n = LFound d -> exists d', dget h' m n = LFound d'.
Proof.
  intros F. apply found_stays.
  - intros a e. unfold impl_get. destruct (nth_error (h_maps h) a) as [mp|] eqn:E; [|discriminate].
    destruct (fr_maps _ _ _ _ _ F a mp E) as (m' & -> & _ & K). destruct (mget (regularize n) mp) as [[v|]|] eqn:Eg; try discriminate. intros _.
    destruct (K _ _ Eg) as (v' & ->). eauto.
  - intros a. unfold impl_get. destruct (nth_error (h_maps h) a) as [mp|] eqn:E; [|discriminate].
    destruct (fr_maps _ _ _ _ _ F a mp E) as (m' & -> & _ & K). intros _. destruct (mget (regularize n) m') as [[v|]|]; eauto.
Qed.

(** ** Scopes *)
Section Text.
Context (text : list rune).
Notation in_scope := (in_scope text).
Lemma in_scope_view sc s s' ws ws' : in_scope sc s ws -> parser_context s' ->
  (forall n, ctx_get (s_heap s') (s_ctx s') n = ctx_get (s_heap s) (s_ctx s) n) ->
  (forall e x, deref (s_heap s) e = Some x -> deref (s_heap s') e = Some x) ->
  (forall n, vacant (s_heap s) (s_ctx s) n -> vacant (s_heap s') (s_ctx s') n) ->
  better (s_heap s) (s_heap s') -> stands text s' ws' -> in_scope sc s' ws'.
Proof.
  intros [A1 A2 A3 A4 A5 A6 A7 A8 A9 A10 A11] PC G Dr Va Be St. unfold senv_of in *.
  assert (Rs : forall n e x, resolves (s_heap s) (s_ctx s) n e x -> resolves (s_heap s') (s_ctx s') n e x).
  { intros n e x (E & y & D & Y). unfold resolves. rewrite G. eauto. }
  constructor; unfold senv_of; auto.
  - intros n. rewrite G. apply A2.
  - intros n P. apply A3 in P. cbn in *. destruct P as [E|(e & x & E & X)]; [left; now rewrite G|right; exists e, x; auto].
  - intros n T. apply A4 in T as (d & t & E). exists d, t. auto.
  - intros n m M. destruct (A5 n m M) as (e & e' & x & mp & E & NM & Gm). destruct (Be x mp m e' NM Gm) as (mp' & d' & NM' & G').
    exists e, d', x, mp'. auto.
  - intros n L. apply A6 in L as (d & E). exists d. auto.
  - intros n P. apply A7 in P. cbn in *. destruct P as [E|(e & x & E & X)]; [left; now rewrite G|right; exists e, x; auto].
  - intros n Ud. rewrite G. auto.
  - intros n O. apply A10 in O. cbn in *. destruct O as [O|(NB & d & t' & E & O)]; [now left|right]. split; [exact NB|]. exists d, t'. auto.
Qed.
Lemma scope_reads sc s ws o a : in_scope sc s ws -> nth_error (h_ctxs (s_heap s)) (s_ctx s) = Some o -> In a (reads (cx_map o)) -> a < length (h_maps (s_heap s)).
Proof.
  intros I Eo. apply reads_total. intros n. destruct (sc_context _ _ _ _ I) as (o1 & E1 & K). rewrite Eo in E1. injection E1 as <-.
  rewrite <- (ctx_get_plain _ _ o n Eo K). apply (sc_total _ _ _ _ I).
Qed.
(** A unit that had a map still has it. *)
Definition units_keep (us : nat -> Prop) (h h' : heap) : Prop := forall v o, us v -> nth_error (h_units h) v = Some o ->
  exists o', nth_error (h_units h') v = Some o' /\ (un_map o = DNil \/ un_map o' = un_map o).
Lemma better_frame t cs us h h' : frame t cs us h h' -> units_keep us h h' -> (forall v, us v \/ ~ us v) -> better h h'.
Proof.
  intros F K Dec x mp n d NM G. destruct (found_frame _ _ _ _ _ _ _ _ F G) as (d' & G'). exists mp, d'. split; [|exact G'].
  assert (Kv : forall v o, nth_error (h_units h) v = Some o -> un_map o = mp -> exists o', nth_error (h_units h') v = Some o' /\ un_map o' = mp).
  { intros v o E M. destruct (Dec v) as [Y|Y].
    - destruct (K v o Y E) as (o' & E' & [X|X]); [rewrite <- M, X in G; discriminate G|]. exists o'. split; [exact E'|congruence].
    - exists o. split; [now apply (fr_unit _ _ _ _ _ _ _ F)|exact M]. }
  destruct x; cbn in *; try contradiction.
  - destruct NM as (it & u & uo & E & E1 & E2 & E3). destruct (Kv u uo E2 E3) as (o' & E' & M').
    destruct (fr_uses _ _ _ _ _ F _ _ E) as (it' & Ei & _ & _ & [X|X]); [congruence|]. exists it', u, o'. split; [exact Ei|]. split; [congruence|auto].
  - destruct NM as (uo & E2 & E3). destruct (Kv _ uo E2 E3) as (o' & E' & M'). eauto.
  - rewrite (fr_progs _ _ _ _ _ F). exact NM.
Qed.
Lemma in_scope_frame t cs us sc s ws h' o o' : in_scope sc s ws -> nth_error (h_ctxs (s_heap s)) (s_ctx s) = Some o ->
  nth_error (h_ctxs h') (s_ctx s) = Some o' -> cx_map o' = cx_map o -> (forall p, cx_kind o' <> KStack p) ->
  frame t cs us (s_heap s) h' -> (forall a, In a (reads (cx_map o)) -> ~ t a) ->
  units_keep us (s_heap s) h' -> (forall v, us v \/ ~ us v) -> in_scope sc (with_heap h' s) ws.
Proof.
  intros I Eo Eo' Em K' F Nt Uk Dec. assert (K : forall p, cx_kind o <> KStack p) by (destruct (sc_context _ _ _ _ I) as (o1 & E1 & K); rewrite Eo in E1; injection E1 as <-; exact K).
  assert (R : forall a n, In a (reads (cx_map o)) -> impl_get h' a n = impl_get (s_heap s) a n).
  { intros a n J. eapply frame_get; [exact F|now apply Nt|eapply scope_reads; eauto]. }
  eapply in_scope_view; [exact I| | | | | |apply stands_heap, I]; cbn [with_heap s_heap s_ctx].
  - exists o'. auto.
  - intros n. rewrite (ctx_get_plain _ _ o' n Eo' K'), (ctx_get_plain _ _ o n Eo K), Em. apply dget_reads. auto.
  - intros e x. eapply deref_frame; eauto.
  - intros n (o1 & a & m & E & T & M & Gm). rewrite Eo in E. injection E as <-. exists o', a, m. rewrite Em.
    split; [exact Eo'|]. split; [exact T|]. split; [|exact Gm]. destruct (fr_maps _ _ _ _ _ F a m M) as (m' & M' & S & _).
    rewrite S in M' by (now apply Nt, target_reads). exact M'.
  - eapply better_frame; eauto.
Qed.
Lemma resolves_frame t cs us s h' o o' n e x : nth_error (h_ctxs (s_heap s)) (s_ctx s) = Some o -> (forall p, cx_kind o <> KStack p) ->
  (forall n, ctx_get (s_heap s) (s_ctx s) n <> LPanic) ->
  nth_error (h_ctxs h') (s_ctx s) = Some o' -> cx_map o' = cx_map o -> (forall p, cx_kind o' <> KStack p) ->
  frame t cs us (s_heap s) h' -> (forall a, In a (reads (cx_map o)) -> ~ t a) ->
  resolves (s_heap s) (s_ctx s) n e x -> resolves h' (s_ctx s) n e x.
Proof.
  intros Eo K T Eo' Em K' F Nt (G & y & D & Y). split; [|exists y; split; [eapply deref_frame; eauto|exact Y]].
  rewrite <- G. rewrite (ctx_get_plain _ _ o' n Eo' K'), (ctx_get_plain _ _ o n Eo K), Em. apply dget_reads. intros a J.
  eapply frame_get; [exact F|now apply Nt|]. eapply reads_total; [|exact J]. intros n0. rewrite <- (ctx_get_plain _ _ o n0 Eo K). apply T.
Qed.

(** ** What a unit gives *)
Definition alike (d d' : decl) : Prop :=
  (is_type d <-> is_type d') /\ (is_ordinal_type d -> is_ordinal_type d') /\ ~ is_namespace (d_node d') /\ d_node d' <> NLabel.
Definition gives (h : heap) (m : dmap) (u : unit_source) : Prop := forall n,
  match declares u n with
  | Some d => exists q d', dget h m n = LFound q /\ deref h q = Some d' /\ alike d d'
  | None => dget h m n = LNil
  end.
Lemma gives_denotes h ms L : Forall2 (gives h) ms L -> forall n,
  match denotes L n with
  | Some d => exists q d', first_found (map (fun m => dget h m n) (rev ms)) = LFound q /\ deref h q = Some d' /\ alike d d'
  | None => first_found (map (fun m => dget h m n) (rev ms)) = LNil
  end.
Proof.
  induction 1 as [|m u ms L G _ IH]; intros n; [reflexivity|]. cbn [denotes rev]. specialize (IH n). specialize (G n).
  rewrite map_app, first_found_app. cbn [map first_found]. destruct (denotes L n) as [d|].
  - destruct IH as (q & d' & -> & D & A). exists q, d'. auto.
  - rewrite IH. destruct (declares u n) as [d|].
    + destruct G as (q & d' & -> & D & A). exists q, d'. auto.
    + now rewrite G.
Qed.
Lemma named_rel {A B} (f : A -> gostring) (g : B -> gostring) l1 l2 : Forall2 (fun a b => f a = g b) l1 l2 -> forall n,
  match named f l1 n, named g l2 n with
  | Some a, Some b => In (a, b) (combine l1 l2)
  | None, None => True
  | _, _ => False
  end.
Proof.
  unfold named. induction 1 as [|a b l1 l2 E _ IH]; intros n; [exact I|]. cbn [find combine]. rewrite E. destruct (list_eq_dec _ _ _).
  - now left.
  - specialize (IH n). destruct (find _ l1), (find _ l2); auto. now right.
Qed.
Lemma entries_alike l : forall l', map bare_intf l' = map bare_intf l ->
  Forall2 (fun d d' => decl_name d = decl_name d' /\ alike d d') (entries l) (entries l').
Proof.
  unfold entries. induction l as [|d l IH]; intros [|d' l'] E; try discriminate E; cbn [flat_map]; [constructor|].
  cbn [map] in E. injection E as Ed El. apply Forall2_app; [|now apply IH]. clear IH El l l'.
  assert (V : forall ids ids' nd, map bare_ident ids' = map bare_ident ids -> In nd [NVar; NThreadVar] ->
    Forall2 (fun d d' => decl_name d = decl_name d' /\ alike d d') (map (fun i => mkDecl i nd) ids) (map (fun i => mkDecl i nd) ids')).
  { intros ids. induction ids as [|i ids IH]; intros [|i' ids'] nd E J; try discriminate E; cbn [map]; [constructor|]. injection E as E1 E2.
    constructor; [|now apply IH]. split; [unfold decl_name; cbn; congruence|]. cbn in J. unfold alike, is_type, is_ordinal_type. cbn. intuition subst; cbn in *; intuition; discriminate. }
  destruct d as [l|l|l|l|[f i ps rt] ? ?]; destruct d' as [l'|l'|l'|l'|[f' i' ps' rt'] ? ?]; try discriminate Ed; cbn [bare_intf] in Ed; injection Ed as Ed; cbn [intf_entries].
  - revert l' Ed. induction l as [|x l IH]; intros [|x' l'] E; try discriminate E; cbn [map]; [constructor|]. cbn [map] in E. injection E as E1 E2 E3 E4.
    constructor; [|now apply IH]. split; [unfold decl_name; cbn; congruence|]. unfold alike, is_type, is_ordinal_type. cbn.
    destruct x as [xi xt xp], x' as [xi' xt' xp']. cbn in *. destruct xt, xt'; cbn in *; try discriminate; intuition; discriminate.
  - revert l' Ed. induction l as [|x l IH]; intros [|x' l'] E; try discriminate E; cbn [flat_map]; [constructor|]. cbn [map] in E. injection E as E1 E2 E3 E4 E5.
    apply Forall2_app; [|now apply IH]. apply V; [exact E1|cbn; auto].
  - revert l' Ed. induction l as [|x l IH]; intros [|x' l'] E; try discriminate E; cbn [flat_map]; [constructor|]. cbn [map] in E. injection E as E1 E2 E3.
    apply Forall2_app; [|now apply IH]. apply V; [exact E1|cbn; auto].
  - revert l' Ed. induction l as [|x l IH]; intros [|x' l'] E; try discriminate E; cbn [map]; [constructor|]. cbn [map] in E. injection E as E1 E2 E3 E4.
    constructor; [|now apply IH]. split; [unfold decl_name; cbn; congruence|]. unfold alike, is_type, is_ordinal_type. cbn. intuition; discriminate.
  - constructor; [|constructor]. split; [unfold decl_name; cbn; congruence|]. unfold alike, is_type, is_ordinal_type. cbn. intuition; discriminate.
Qed.
Lemma answers_gives h m u l' : map bare_intf l' = map bare_intf (us_decls u) -> answers_with h m (entries l') -> gives h m u.
Proof.
  intros E (A1 & A2 & A3) n. pose proof (entries_alike _ _ E) as F. unfold declares, named.
  assert (X : match find (fun d => if list_eq_dec N.eq_dec (to_lower n) (to_lower (i_name (d_ident d))) then true else false) (entries (us_decls u)) with
    | Some d => exists d', In d' (entries l') /\ same_name n (decl_name d') /\ alike d d'
    | None => forall d', In d' (entries l') -> ~ same_name n (decl_name d')
    end).
  { clear A1 A2 A3. induction F as [|d d' l1 l2 [En Al] F IH]; cbn [find]; [intros d' []|]. fold (decl_name d). destruct (list_eq_dec _ _ _) as [e|e].
    - exists d'. split; [now left|]. split; [|exact Al]. unfold same_name. congruence.
    - destruct (find _ l1) as [x|].
      + destruct IH as (x' & J & S). exists x'. split; [now right|exact S].
      + intros x [<-|J]; [|now apply IH]. unfold same_name. congruence. }
  destruct (find _ _) as [d|].
  - destruct X as (d' & J & S & Al). destruct (A2 d' n J S) as (p & G & D). exists p, d'. auto.
  - destruct (dget h m n) as [|p|] eqn:G; [reflexivity| |now apply A3 in G]. destruct (A1 n p G) as (d & D & J & S). exfalso. now apply (X d J).
Qed.
Lemma gives_frame t cs us h h' a u : frame t cs us h h' -> ~ t a -> gives h (DImpl a) u -> gives h' (DImpl a) u.
Proof.
  intros F N G n. specialize (G n). cbn [dget] in *. destruct (nth_error (h_maps h) a) as [m|] eqn:E.
  - rewrite (frame_get _ _ _ _ _ a n F N) by (eapply nth_lt; eauto). destruct (declares u n); [|exact G]. destruct G as (q & d' & G & D & A). exists q, d'. split; [exact G|].
    split; [eapply deref_frame; eauto|exact A].
  - unfold impl_get in G. rewrite E in G. destruct (declares u n); [destruct G as (? & ? & ? & _)|]; discriminate.
Qed.
Lemma gives_answer h m u n : gives h m u -> declares u n <> None -> exists q, dget h m n = LFound q.
Proof. intros G N. specialize (G n). destruct (declares u n); [destruct G as (q & _ & G & _); eauto|congruence]. Qed.

(** ** The scopes of units *)
Lemma in_scope_qualified l sc s ws : in_scope sc s ws ->
  (forall n u x m, In (n, u) l -> same_name x n -> declares u m <> None -> exists d d', member (names (senv_of s)) x m d d') ->
  in_scope (qualified l sc) s ws.
Proof.
  intros [A1 A2 A3 A4 A5 A6 A7 A8 A9 A10 A11] H. constructor; auto. cbn [qualified known names member].
  intros n m (d & d' & [M|(n1 & u & J & S & D)]); [apply A5; eauto|eapply H; eauto].
Qed.
Lemma names_items_member h c us l a i x m v uo : names_items h c us l -> In (a, i) (combine us l) -> same_name x (fst i) ->
  (exists o, nth_error (h_uses h) a = Some o /\ u_unit o = Some v) -> nth_error (h_units h) v = Some uo ->
  (exists q, dget h (un_map uo) m = LFound q) -> exists d d', member (names (senv_at h c)) x m d d'.
Proof.
  intros N J S (o & Eo & Eu) Ev (q & G).
  assert (X : forall x, same_name x (fst i) -> exists d, resolves h c x d (NUses a)).
  { clear -N J. induction N as [|a' i' us l H N IH]; [destruct J|]. destruct J as [[= <- <-]|J]; [exact H|now apply IH]. }
  destruct (X x S) as (d & R). exists d, q. cbn. exists (NUses a), (un_map uo). split; [exact R|]. split; [|exact G].
  cbn. exists o, v, uo. auto.
Qed.
(** The scope behind a map of what units declare *)
Lemma in_scope_import sc s ws h' o ms L : in_scope sc s ws -> nth_error (h_ctxs (s_heap s)) (s_ctx s) = Some o ->
  h_maps h' = h_maps (s_heap s) ++ [[]] -> h_decls h' = h_decls (s_heap s) -> h_uses h' = h_uses (s_heap s) ->
  h_units h' = h_units (s_heap s) -> h_progs h' = h_progs (s_heap s) ->
  nth_error (h_ctxs h') (s_ctx s) = Some (mkCtx (cx_kind o) (cx_path o) (DComposite (DImpl (length (h_maps (s_heap s))) :: rev ms ++ [cx_map o]))) ->
  Forall2 (gives (s_heap s)) ms L -> in_scope (import L sc) (with_heap h' s) ws.
Proof.
  intros I Eo Em Ed Eu En Ep Ec G. set (h := s_heap s) in *. set (c := s_ctx s) in *. set (b := length (h_maps h)) in *.
  assert (K : forall p, cx_kind o <> KStack p) by (destruct (sc_context _ _ _ _ I) as (o1 & E1 & K); fold h c in E1; rewrite Eo in E1; injection E1 as <-; exact K).
  assert (Nb : nth_error (h_maps h') b = Some []) by (rewrite Em; apply nth_app_new).
  assert (Ig : forall a n, a < b -> impl_get h' a n = impl_get h a n).
  { intros a n L1. unfold impl_get. now rewrite Em, nth_error_app1. }
  assert (Rd : forall m n, (forall n, dget h m n <> LPanic) -> dget h' m n = dget h m n).
  { intros m n T. apply dget_reads. intros a J. apply Ig. eapply reads_total; eauto. }
  assert (Gm : forall m, In m ms -> forall n, dget h m n <> LPanic).
  { intros m J n. apply In_nth_error in J as (k & E). pose proof G as G'. clear -G' E. revert k E.
    induction G' as [|m' u ms L Gm _ IH]; intros [|k] E; try discriminate E; [|eauto]. injection E as ->. specialize (Gm n).
    destruct (declares u n); [destruct Gm as (? & ? & -> & _)|rewrite Gm]; discriminate. }
  assert (Go : forall n, ctx_get h c n = dget h (cx_map o) n) by (intros n; now apply ctx_get_plain).
  assert (To : forall n, dget h (cx_map o) n <> LPanic) by (intros n; rewrite <- Go; apply (sc_total _ _ _ _ I)).
  assert (Get : forall n, ctx_get h' c n = match first_found (map (fun m => dget h m n) (rev ms)) with LNil => ctx_get h c n | r => r end).
  { intros n. rewrite (ctx_get_plain h' c _ n Ec K). cbn [cx_map]. rewrite dget_composite. cbn [map first_found dget]. unfold impl_get at 1. rewrite Nb. cbn [mget].
    rewrite map_app, first_found_app. cbn [map first_found]. rewrite (Rd _ n To), <- Go.
    replace (map (fun m => dget h' m n) (rev ms)) with (map (fun m => dget h m n) (rev ms)).
    - destruct (first_found _); auto. destruct (ctx_get h c n); reflexivity.
    - apply map_ext_in. intros m J. symmetry. apply Rd, Gm. now apply in_rev. }
  pose proof (gives_denotes h ms L G) as Dn.
  assert (Dr : forall e, deref h' e = deref h e) by (intros [e|e]; cbn; rewrite ?Ed; reflexivity).
  assert (Old : forall n, denotes L n = None -> ctx_get h' c n = ctx_get h c n).
  { intros n E. specialize (Dn n). rewrite E in Dn. now rewrite Get, Dn. }
  assert (New : forall n d, denotes L n = Some d -> exists q d', resolves h' c n q (d_node d') /\ alike d d').
  { intros n d E. specialize (Dn n). rewrite E in Dn. destruct Dn as (q & d' & F & D & A). exists q, d'. split; [|exact A].
    split; [now rewrite Get, F|]. exists d'. split; [now rewrite Dr|reflexivity]. }
  assert (Rs : forall n e x, denotes L n = None -> resolves h c n e x -> resolves h' c n e x).
  { intros n e x N (E & y & D & Y). unfold resolves. rewrite (Old n N), Dr. eauto. }
  destruct I as [A1 A2 A3 A4 A5 A6 A7 A8 A9 A10 A11]. unfold senv_of in *. fold h c in A2, A3, A4, A5, A6, A7, A8, A9, A10.
  constructor; cbn [import known free undeclared ordinal names a_label no_label plain_name type_name member with_heap s_heap s_ctx]; unfold senv_of; cbn [with_heap s_heap s_ctx]; fold c.
  - eexists. split; [exact Ec|exact K].
  - intros n. destruct (denotes L n) as [d|] eqn:E; [|rewrite (Old n E); apply A2]. destruct (New n d E) as (q & d' & (X & _) & _). congruence.
  - intros n. destruct (denotes L n) as [d|] eqn:E; intros P.
    + destruct (New n d E) as (q & d' & R & (T & _ & Ns & _)). right. exists q, (d_node d'). split; [exact R|]. split; [exact Ns|]. intros t Et.
      apply P, T. unfold is_type. now rewrite Et.
    + apply A3 in P. cbn in *. destruct P as [X|(e & x & X & Y)]; [left; now rewrite Old|right; exists e, x; auto].
  - intros n. destruct (denotes L n) as [d|] eqn:E; intros P.
    + destruct (New n d E) as (q & d' & R & (T & _ & _)). apply T in P. unfold is_type in P. destruct (d_node d') eqn:En'; try contradiction. cbn. eauto.
    + apply A4 in P as (d & t' & X). exists d, t'. auto.
  - intros n m (d & d' & N & M). destruct (A5 n m (ex_intro _ d (ex_intro _ d' M))) as (e & e' & x & mp & E & NM & Gx).
    assert (NM' : namespace_map h' x mp) by (destruct x; cbn in *; rewrite ?Eu, ?En, ?Ep; exact NM).
    destruct (proj1 (found_stays h h' mp m e' (fun a d => ltac:(unfold impl_get; rewrite Em; destruct (nth_error (h_maps h) a) eqn:Ea; [rewrite nth_error_app1 by (eapply nth_lt; eauto); rewrite Ea; eauto|discriminate])) (fun a => ltac:(unfold impl_get; rewrite Em; destruct (nth_error (h_maps h) a) eqn:Ea; [rewrite nth_error_app1 by (eapply nth_lt; eauto); rewrite Ea; eauto|discriminate]))) Gx) as (d2 & G2).
    exists e, d2, x, mp. auto.
  - intros n [N P]. apply A6 in P as (d & E). exists d. auto.
  - intros n P. destruct (denotes L n) as [d|] eqn:E.
    + destruct (New n d E) as (q & d' & R & (_ & _ & _ & Nl)). right. exists q, (d_node d'). auto.
    + destruct P as [P|P]; [congruence|]. apply A7 in P. cbn in *. destruct P as [X|(e & x & X & Y)]; [left; now rewrite Old|right; exists e, x; auto].
  - intros n _. eexists _, b, []. split; [exact Ec|]. split; [reflexivity|]. split; [exact Nb|reflexivity].
  - intros n [N P]. rewrite Old by exact N. now apply A9.
  - intros n. destruct (denotes L n) as [d|] eqn:E.
    + intros [O NB]. destruct (New n d E) as (q & d' & R & (_ & Or & _)). apply Or in O. right. split; [exact NB|]. unfold is_ordinal_type in O.
      destruct (d_node d'); try contradiction. eexists q, _. split; [exact R|]. match goal with |- context [match ?t with _ => _ end] => destruct t; auto | _ => idtac end.
    + intros O. apply A10 in O. cbn in *. destruct O as [O|(NB & d & t' & X & O)]; [now left|right]. split; [exact NB|]. exists d, t'. auto.
  - now apply stands_heap.
Qed.
End Text.
End WithUnicode.
