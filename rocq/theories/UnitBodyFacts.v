(** The rules for the parts of a unit. *)
From Coq Require Import String List Arith NArith Bool Lia.
From Verif Require Import ListUtil Runes UnicodeFacts Token Tokenizer LexSpec LexShape LexFacts LexMain Ext ExtMain Ast Heap Classes MapSpec MapFacts MapMain Prog Parser ParseSpec RunFacts
  ExprSpec WpFacts ExprFacts StmtSpec GrowFacts StmtFacts EvolveFacts EvolveParse Units UnitSpec UsesMain DeclSpec ScopeFacts DeclFacts TypeFacts SectionFacts DeclMain TermUnit UnitTextSpec UnitTextFacts.
Import ListNotations.
Local Open Scope list_scope.

Section WithUnicode.
Context {U : Unicode} {UOK : UnicodeOk U}.
Local Open Scope prog_scope.
Notation words := (list (ttype * gostring)).

(** ** The map of a unit *)
Definition loc_decl (d : decl) : Prop := located_ident (d_ident d).
Definition good_map (h : heap) (m : mapobj) : Prop :=
  forall k v, mget k m = Some v -> exists q d, v = Some q /\ deref h q = Some d /\ loc_decl d.
Lemma deref_more h l q d : deref h q = Some d -> deref (with_decls (h_decls h ++ l) h) q = Some d.
Proof. destruct q; cbn; [auto|]. intros E. rewrite nth_error_app1; [exact E|]. eapply nth_lt; eauto. Qed.
Lemma impl_set_good a l : forall h m, nth_error (h_maps h) a = Some m -> good_map h m ->
  Forall (fun x : ident * dref => located_ident (fst x) /\ exists d, deref h (snd x) = Some d /\ loc_decl d) l ->
  exists m', (impl_set h a l = SOk (with_maps (set_nth a m' (h_maps h)) h) \/
              exists i, impl_set h a l = SErr (with_maps (set_nth a m' (h_maps h)) h) i) /\ good_map h m'.
Proof.
  induction l as [|[i q] l IH]; intros h m Em G F; cbn [impl_set].
  - exists m. split; [left|exact G]. rewrite (set_nth_same a m _ Em). now destruct h.
  - rewrite Em. inversion F as [|? ? [Li (d & Ed & Ld)] F']. subst. cbn [fst snd] in *. destruct (mget (regularize (i_name i)) m) as [v|] eqn:Eg.
    + destruct (G _ _ Eg) as (q' & d' & -> & Ed' & Ld'). rewrite Ed'. cbn [option_map]. unfold loc_decl, located_ident in *.
      destruct (i_loc i); [|congruence]. destruct (i_loc (d_ident d')); [|congruence]. exists m. split; [right|exact G].
      exists i. rewrite (set_nth_same a m _ Em). now destruct h.
    + set (m1 := mput (regularize (i_name i)) (Some q) m). set (h1 := with_maps (set_nth a m1 (h_maps h)) h).
      assert (Dh : forall q, deref h1 q = deref h q) by (intros; apply deref_maps).
      destruct (IH h1 m1) as (m' & R & G').
      * cbn. apply nth_set_nth_eq. eapply nth_lt; eauto.
      * intros k v. unfold m1. destruct (list_eq_dec N.eq_dec k (regularize (i_name i))) as [->|N].
        -- rewrite mget_put_eq. intros [= <-]. exists q, d. rewrite Dh. auto.
        -- rewrite mget_put_neq by exact N. intros E. destruct (G k v E) as (q1 & d1 & Q1). exists q1, d1. rewrite Dh. exact Q1.
      * eapply Forall_impl; [|exact F']. intros [i1 q1]. now rewrite Dh.
      * exists m'. split; [|intros k v E; destruct (G' k v E) as (q1 & d1 & Q1); exists q1, d1; now rewrite Dh in Q1].
        cbn [h1 h_maps with_maps] in R. rewrite set_nth_twice in R. destruct R as [R|(i' & R)]; [left|right; exists i']; exact R.
Qed.
Lemma alloc_refs h ds : Forall (fun x : decl * dref => deref (with_decls (h_decls h ++ ds) h) (snd x) = Some (fst x))
  (combine ds (map Ptr (seq (length (h_decls h)) (length ds)))).
Proof.
  assert (X : forall l1 ds, Forall (fun x : decl * dref => deref (with_decls (l1 ++ ds) h) (snd x) = Some (fst x)) (combine ds (map Ptr (seq (length l1) (length ds))))); [|apply X].
  intros l1 ds'. revert l1. induction ds' as [|d ds' IH]; intros l1; [constructor|]. cbn [length seq map combine]. constructor.
  - cbn. rewrite nth_error_app2, Nat.sub_diag by lia. reflexivity.
  - specialize (IH (l1 ++ [d])). rewrite app_length, Nat.add_1_r in IH. cbn [length] in IH. rewrite <- app_assoc in IH. exact IH.
Qed.
Lemma alloc_list h ds : snd (alloc_decls h ds) = map (fun x => (d_ident (fst x), snd x)) (combine ds (map Ptr (seq (length (h_decls h)) (length ds)))).
Proof.
  cbn. generalize (length (h_decls h)). induction ds as [|d ds IH]; intros n; [reflexivity|]. cbn [length seq map combine]. now rewrite IH.
Qed.
Lemma combine_fst {A C} (l : list A) : forall l2 : list C, length l2 = length l -> map fst (combine l l2) = l.
Proof. induction l as [|x l IH]; intros [|y l2] E; try discriminate E; [reflexivity|]. cbn. f_equal. apply IH. now injection E. Qed.
Lemma nodup_front {A} (l1 l2 : list A) : NoDup (l1 ++ l2) -> NoDup l1.
Proof.
  induction l1 as [|x l1 IH]; [constructor|]. cbn. intros N. inversion N as [|? ? Nx N']. subst.
  constructor; [intros J; apply Nx, in_or_app; now left|auto].
Qed.
Definition changes_at (a : nat) (h h' : heap) : Prop :=
  exists m' ds, h' = with_maps (set_nth a m' (h_maps h)) (with_decls (h_decls h ++ ds) h).
Lemma set_all_good a l : forall h m, nth_error (h_maps h) a = Some m -> good_map h m -> Forall (Forall loc_decl) l ->
  exists h', set_all h (DImpl a) l = Some h' /\ changes_at a h h'.
Proof.
  induction l as [|ds l IH]; intros h m Em G F; cbn [set_all].
  - exists h. split; [reflexivity|]. exists m, []. rewrite app_nil_r, (set_nth_same a m _ Em). now destruct h.
  - inversion F as [|? ? Fd F']. subst. unfold map_set. destruct (alloc_decls h ds) as [h1 rl] eqn:Ea.
    assert (Eh : h1 = with_decls (h_decls h ++ ds) h) by (injection Ea as <- _; reflexivity).
    assert (El : rl = map (fun x => (d_ident (fst x), snd x)) (combine ds (map Ptr (seq (length (h_decls h)) (length ds))))) by (rewrite <- alloc_list, Ea; reflexivity).
    cbn [dset]. destruct (impl_set_good a rl h1 m) as (m' & R & G').
    { rewrite Eh. exact Em. }
    { intros k v E. destruct (G k v E) as (q & d & -> & Ed & Ld). exists q, d. split; [reflexivity|]. split; [|exact Ld]. rewrite Eh. now apply deref_more. }
    { rewrite El, Forall_map. pose proof (alloc_refs h ds) as X. rewrite <- Eh in X. rewrite Forall_forall in X, Fd |- *. intros [d q] J. specialize (X _ J). cbn [fst snd] in *.
      apply in_combine_l in J. specialize (Fd d J). split; [exact Fd|]. eauto. }
    set (h2 := with_maps (set_nth a m' (h_maps h1)) h1) in *.
    destruct (IH h2 m') as (h' & R2 & (m2 & ds2 & E2)).
    { cbn. apply nth_set_nth_eq. rewrite Eh. cbn. eapply nth_lt; eauto. }
    { intros k v E. destruct (G' k v E) as (q & d & Q). exists q, d. exact Q. }
    { exact F'. }
    exists h'. split; [destruct R as [->|(i & ->)]; exact R2|]. exists m2, (ds ++ ds2). subst h'. unfold h2. rewrite Eh. cbn. rewrite set_nth_twice, app_assoc. reflexivity.
Qed.
(** With distinct names, the map answers with the declarations. *)
Definition tells (h : heap) (m : mapobj) (l : list decl) : Prop :=
  (forall k v, mget k m = Some v -> exists q d, v = Some q /\ deref h q = Some d /\ In d l /\ k = to_lower (decl_name d)) /\
  (forall d, In d l -> exists q, mget (to_lower (decl_name d)) m = Some (Some q) /\ deref h q = Some d).
Lemma impl_set_tells a (rl : list (decl * dref)) : forall h m l, nth_error (h_maps h) a = Some m -> tells h m l ->
  Forall (fun x => deref h (snd x) = Some (fst x)) rl -> NoDup (map to_lower (map decl_name (l ++ map fst rl))) ->
  exists m', impl_set h a (map (fun x => (d_ident (fst x), snd x)) rl) = SOk (with_maps (set_nth a m' (h_maps h)) h) /\ tells h m' (l ++ map fst rl).
Proof.
  induction rl as [|[d q] rl IH]; intros h m l Em [T1 T2] F N; cbn [map impl_set fst snd].
  - exists m. rewrite (set_nth_same a m _ Em), app_nil_r. split; [now destruct h|split; assumption].
  - rewrite Em. inversion F as [|? ? Ed F']. subst. cbn [fst snd] in *.
    assert (Ng : forall d', In d' l -> to_lower (decl_name d') <> to_lower (decl_name d)).
    { intros d' J E. cbn [map fst] in N. rewrite !map_app in N. cbn [map] in N. apply NoDup_remove_2 in N. apply N. apply in_or_app. left. rewrite <- E. now apply in_map, in_map. }
    destruct (mget (regularize (i_name (d_ident d))) m) as [v|] eqn:Eg.
    { destruct (T1 _ _ Eg) as (q' & d' & _ & _ & J & K). exfalso. now apply (Ng d' J). }
    set (m1 := mput (regularize (i_name (d_ident d))) (Some q) m). set (h1 := with_maps (set_nth a m1 (h_maps h)) h).
      assert (Dh : forall q, deref h1 q = deref h q) by (intros; apply deref_maps).
    destruct (IH h1 m1 (l ++ [d])) as (m' & R & [G1 G2]).
    + cbn. apply nth_set_nth_eq. eapply nth_lt; eauto.
    + split.
      * intros k v. unfold m1. destruct (list_eq_dec N.eq_dec k (regularize (i_name (d_ident d)))) as [->|Nk].
        -- rewrite mget_put_eq. intros [= <-]. exists q, d. rewrite Dh. repeat split; auto. apply in_or_app. right. now left.
        -- rewrite mget_put_neq by exact Nk. intros E. destruct (T1 k v E) as (q1 & d1 & -> & D & J & K). exists q1, d1. rewrite Dh. repeat split; auto. apply in_or_app. now left.
      * intros d1 J. apply in_app_or in J as [J|[<-|[]]].
        -- destruct (T2 d1 J) as (q1 & M1 & D1). exists q1. unfold m1. rewrite mget_put_neq by (now apply Ng). rewrite Dh. auto.
        -- exists q. unfold m1. rewrite Dh. split; [|exact Ed]. apply mget_put_eq.
    + eapply Forall_impl; [|exact F']. intros [? ?]. now rewrite Dh.
    + rewrite <- app_assoc. exact N.
    + exists m'. cbn [h1 h_maps with_maps] in R. rewrite set_nth_twice in R. split; [exact R|]. rewrite <- app_assoc in G1, G2. split.
      * intros k v E. destruct (G1 k v E) as (q1 & d1 & Q1). exists q1, d1. now rewrite Dh in Q1.
      * intros d1 J. destruct (G2 d1 J) as (q1 & Q1). exists q1. now rewrite Dh in Q1.
Qed.
Lemma tells_more h ds m l : tells h m l -> tells (with_decls (h_decls h ++ ds) h) m l.
Proof.
  intros [T1 T2]. split.
  - intros k v E. destruct (T1 k v E) as (q & d & -> & D & X). exists q, d. split; [reflexivity|]. split; [now apply deref_more|exact X].
  - intros d J. destruct (T2 d J) as (q & M & D). exists q. split; [exact M|now apply deref_more].
Qed.
Lemma set_all_tells a ll : forall h m l, nth_error (h_maps h) a = Some m -> tells h m l ->
  NoDup (map to_lower (map decl_name (l ++ List.concat ll))) ->
  exists h' m', set_all h (DImpl a) ll = Some h' /\ nth_error (h_maps h') a = Some m' /\ tells h' m' (l ++ List.concat ll).
Proof.
  induction ll as [|ds ll IH]; intros h m l Em T N; cbn [set_all List.concat].
  - exists h, m. rewrite app_nil_r. auto.
  - unfold map_set. destruct (alloc_decls h ds) as [h1 rl] eqn:Ea.
    assert (Eh : h1 = with_decls (h_decls h ++ ds) h) by (injection Ea as <- _; reflexivity).
    assert (El : rl = map (fun x => (d_ident (fst x), snd x)) (combine ds (map Ptr (seq (length (h_decls h)) (length ds))))) by (rewrite <- alloc_list, Ea; reflexivity).
    assert (Ef : map fst (combine ds (map Ptr (seq (length (h_decls h)) (length ds)))) = ds) by (apply combine_fst; now rewrite map_length, seq_length).
    cbn [List.concat] in N. rewrite app_assoc in N.
    cbn [dset]. destruct (impl_set_tells a (combine ds (map Ptr (seq (length (h_decls h)) (length ds)))) h1 m l) as (m' & R & T').
    { rewrite Eh. exact Em. }
    { rewrite Eh. now apply tells_more. }
    { rewrite Eh. apply alloc_refs. }
    { rewrite Ef. rewrite map_app, map_app in N. now apply nodup_front in N. }
    rewrite Ef in T'. rewrite El, R. destruct (IH (with_maps (set_nth a m' (h_maps h1)) h1) m' (l ++ ds)) as (h' & m2 & R2 & E2 & T2).
    { cbn. apply nth_set_nth_eq. rewrite Eh. cbn. eapply nth_lt; eauto. }
    { destruct T' as [T1 T2]. split; [exact T1|exact T2]. }
    { exact N. }
    exists h', m2. split; [exact R2|]. split; [exact E2|]. now rewrite app_assoc.
Qed.
Lemma tells_answers h a m l : nth_error (h_maps h) a = Some m -> tells h m l -> answers_with h (DImpl a) l.
Proof.
  intros Em [T1 T2]. unfold answers_with. cbn [dget]. unfold impl_get. rewrite Em. split; [|split].
  - intros n p E. destruct (mget (regularize n) m) as [[v|]|] eqn:Eg; try discriminate E. injection E as ->.
    destruct (T1 _ _ Eg) as (q & d & [= <-] & D & J & K). exists d. auto.
  - intros d n J S. destruct (T2 d J) as (q & M & D). exists q. unfold same_name in S. unfold regularize. rewrite S. fold (decl_name d). rewrite M. auto.
  - intros n. destruct (mget (regularize n) m) as [[v|]|]; discriminate.
Qed.
Lemma entries_nodes l : List.concat (flat_map intf_decl_nodes l) = entries l.
Proof.
  induction l as [|d l IH]; [reflexivity|]. unfold entries in *. cbn [flat_map]. rewrite concat_app, IH. f_equal.
  destruct d as [l1|l1|l1|l1|[? ? ? ?] ? ?]; cbn [intf_decl_nodes intf_entries]; try (rewrite flat_map_concat_map; reflexivity); try reflexivity;
    (induction l1 as [|x l1 IH1]; [reflexivity|]; cbn [map List.concat app]; now rewrite IH1).
Qed.

Lemma entry_names_bare l : entry_names (map bare_intf l) = entry_names l.
Proof.
  unfold entry_names, entries. induction l as [|d l IH]; [reflexivity|]. cbn [map flat_map]. rewrite !map_app, IH. f_equal.
  destruct d as [l1|l1|l1|l1|[? ? ? ?] ? ?]; cbn [bare_intf intf_entries bare_heading]; try reflexivity.
  - now rewrite !map_map.
  - induction l1 as [|x l1 IH1]; [reflexivity|]. cbn [map flat_map]. rewrite !map_app, IH1. f_equal. destruct x. cbn. now rewrite !map_map.
  - induction l1 as [|x l1 IH1]; [reflexivity|]. cbn [map flat_map]. rewrite !map_app, IH1. f_equal. destruct x. cbn. now rewrite !map_map.
  - now rewrite !map_map.
Qed.
Lemma target_there h m a n : target m = Some a -> dget h m n <> LPanic -> a < length (h_maps h).
Proof.
  revert a. induction m as [b|p IH b|ms IH| |] using dmap_ind'; cbn [target dget]; intros a T D; try discriminate T.
  - injection T as ->. unfold impl_get in D. destruct (nth_error (h_maps h) a) eqn:E; [eapply nth_lt; eauto|congruence].
  - injection T as ->. unfold impl_get in D. destruct (nth_error (h_maps h) a) eqn:E; [eapply nth_lt; eauto|congruence].
  - destruct ms as [|m ms]; [discriminate T|]. inversion IH as [|? ? H _]. subst. apply H; [exact T|]. intros E. now rewrite E in D.
Qed.

(** ** What the parts of a unit leave as it was *)
Definition away (a : nat) (s : pst) : Prop := forall o, nth_error (h_ctxs (s_heap s)) (s_ctx s) = Some o -> target (cx_map o) <> Some a.
Record moved (uc u : nat) (s s' : pst) : Prop := mkMoved {
  mv_uses : exists l, h_uses (s_heap s') = h_uses (s_heap s) ++ l;
  mv_units : forall v, v <> u -> nth_error (h_units (s_heap s')) v = nth_error (h_units (s_heap s)) v;
  mv_progs : h_progs (s_heap s') = h_progs (s_heap s);
  mv_decls : exists l, h_decls (s_heap s') = h_decls (s_heap s) ++ l;
  mv_maps : forall a m, nth_error (h_maps (s_heap s)) a = Some m ->
    exists m', nth_error (h_maps (s_heap s')) a = Some m' /\ (away a s -> m' = m) /\ keeps m m';
  mv_len : length (h_maps (s_heap s)) <= length (h_maps (s_heap s'));
  mv_ctxs : forall c o, nth_error (h_ctxs (s_heap s)) c = Some o -> c <> s_ctx s -> c <> uc -> nth_error (h_ctxs (s_heap s')) c = Some o;
  mv_ctxlen : length (h_ctxs (s_heap s)) <= length (h_ctxs (s_heap s'));
  mv_at : s_ctx s' = s_ctx s \/ length (h_ctxs (s_heap s)) <= s_ctx s';
  mv_away : forall a, a < length (h_maps (s_heap s)) -> away a s -> away a s';
  mv_kinds : forall c o, nth_error (h_ctxs (s_heap s)) c = Some o -> exists o', nth_error (h_ctxs (s_heap s')) c = Some o' /\
    cx_kind o' = cx_kind o /\ cx_path o' = cx_path o }.
Lemma moved_refl uc u s : moved uc u s s.
Proof.
  constructor; auto; try (exists []; now rewrite app_nil_r). 
  - intros a m E. exists m. split; [exact E|]. split; [auto|apply keeps_refl].
  - eauto.
Qed.
Lemma moved_trans uc u s1 s2 s3 : moved uc u s1 s2 -> moved uc u s2 s3 -> moved uc u s1 s3.
Proof.
  intros [(l1 & A1) A2 A3 (d1 & A4) A5 A6 A7 A8 A9 A10 A11] [(l2 & B1) B2 B3 (d2 & B4) B5 B6 B7 B8 B9 B10 B11]. constructor; try congruence; try lia.
  - exists (l1 ++ l2). now rewrite B1, A1, app_assoc.
  - intros v N. now rewrite B2, A2.
  - exists (d1 ++ d2). now rewrite B4, A4, app_assoc.
  - intros a m E. destruct (A5 a m E) as (m1 & E1 & S1 & K1). destruct (B5 a m1 E1) as (m2 & E2 & S2 & K2). exists m2. split; [exact E2|].
    split; [|eapply keeps_trans; eauto]. intros Aw. rewrite S2, S1; auto. apply A10; [eapply nth_lt; eauto|exact Aw].
  - intros c o E N1 N2. apply B7; auto. intros ->. destruct A9 as [A9|A9]; [congruence|]. apply nth_lt in E. lia.
  - intros a L Aw. apply B10; [lia|auto].
  - intros c o E. destruct (A11 c o E) as (o1 & E1 & K1 & P1). destruct (B11 c o1 E1) as (o2 & E2 & K2 & P2). exists o2. split; [exact E2|]. split; congruence.
Qed.
Lemma evolved_moved uc u s s' : anchored s -> evolved s s' -> moved uc u s s'.
Proof.
  intros (o & Eo & _) [A1 A2 A3 A4 A5 A6 A7 A8 A9 A10 A11]. constructor; auto.
  - exists []. now rewrite app_nil_r.
  - intros. now rewrite A2.
  - intros a m E. destruct (A5 o Eo a m E) as (m' & E' & S & K). exists m'. split; [exact E'|]. split; [|exact K]. intros Aw. apply S, (Aw o Eo).
  - intros a L Aw. specialize (Aw o Eo). destruct (A10 o Eo) as (l & E & F). intros o' E'. rewrite E in E'. injection E' as <-. cbn [cx_map].
    destruct l as [|x l]; [exact Aw|]. destruct (chain_target (x :: l) (cx_map o)) as (b & J & T); [discriminate|]. rewrite T. rewrite Forall_forall in F. apply F in J.
    intros [= ->]. lia.
Qed.
Lemma ran_moved uc u s s' : anchored s -> ran s s' -> moved uc u s s'.
Proof.
  intros An (l & V). eapply moved_trans; [|apply (evolved_moved uc u) in V; [exact V|exact An]].
  constructor; cbn; auto; try (exists []; now rewrite app_nil_r); eauto.
  intros a m E. exists m. split; [exact E|]. split; [auto|apply keeps_refl].
Qed.
Lemma say_moved uc u s s' us l : moved uc u s s' -> uses_say (s_heap s) us l -> uses_say (s_heap s') us l.
Proof.
  intros Mv. destruct (mv_uses _ _ _ _ Mv) as (more & E). unfold uses_say. rewrite E.
  induction 1 as [|a i us l (o & Eo & Ho) H IH]; constructor; [|exact IH].
  exists o. split; [|exact Ho]. rewrite nth_error_app1; [exact Eo|]. eapply nth_lt; eauto.
Qed.
Lemma clause_moved uc u s s' us l : moved uc u s s' -> clause_says (s_heap s) us l -> clause_says (s_heap s') us l.
Proof. intros Mv. destruct us, l; cbn; auto. now apply (say_moved uc u). Qed.
Lemma deref_moved uc u s s' q d : moved uc u s s' -> deref (s_heap s) q = Some d -> deref (s_heap s') q = Some d.
Proof.
  intros Mv. destruct (mv_decls _ _ _ _ Mv) as (more & E). destruct q; cbn; [auto|]. rewrite E. intros D. rewrite nth_error_app1; [exact D|]. eapply nth_lt; eauto.
Qed.
Lemma answers_moved uc u s s' a l : moved uc u s s' -> a < length (h_maps (s_heap s)) -> away a s ->
  answers_with (s_heap s) (DImpl a) l -> answers_with (s_heap s') (DImpl a) l.
Proof.
  intros Mv L Aw (A1 & A2 & A3). assert (G : forall n, dget (s_heap s') (DImpl a) n = dget (s_heap s) (DImpl a) n).
  { intros n. cbn. unfold impl_get. destruct (nth_error (h_maps (s_heap s)) a) as [m|] eqn:E; [|apply nth_error_None in E; lia].
    destruct (mv_maps _ _ _ _ Mv a m E) as (m' & -> & S & _). now rewrite (S Aw). }
  split; [|split].
  - intros n p. rewrite G. intros E. destruct (A1 n p E) as (d & D & X). exists d. split; [eapply deref_moved; eauto|exact X].
  - intros d n J S. destruct (A2 d n J S) as (p & E & D). exists p. rewrite G. split; [exact E|eapply deref_moved; eauto].
  - intros n. rewrite G. apply A3.
Qed.

Context (text : list rune) (st : style).
Notation in_scope := (in_scope text).
Ltac fl := cbv beta iota; repeat (match goal with
  | |- wp (Bind (Ret _) _) _ _ => apply wp_ret_bind
  | |- wp (Bind (Bind _ _) _) _ _ => apply wp_assoc
  end; cbv beta iota).
Ltac wd := let t := fresh "t" in let W := fresh "W" in intros t W; cbn [p_some existsb]; rewrite ?sym_w, ?kw_w, ?type_w, ?W; try reflexivity.

Lemma moved_units uc u s v : (forall w, w <> u -> nth_error v w = nth_error (h_units (s_heap s)) w) ->
  moved uc u s (with_heap (with_units v (s_heap s)) s).
Proof.
  intros N. constructor; cbn; auto; try (exists []; now rewrite app_nil_r); [|eauto].
  intros a m E. exists m. split; [exact E|]. split; [auto|apply keeps_refl].
Qed.
Lemma put_unit_there h u o f : nth_error (h_units h) u = Some o -> put_unit h u f = with_units (set_nth u (f o) (h_units h)) h.
Proof. intros E. unfold put_unit. now rewrite E. Qed.
Lemma in_scope_units sc s ws u o o' : in_scope sc s ws -> nth_error (h_units (s_heap s)) u = Some o -> un_map o = DNil \/ un_map o' = un_map o ->
  in_scope sc (with_heap (with_units (set_nth u o' (h_units (s_heap s))) (s_heap s)) s) ws.
Proof.
  intros I E M. eapply in_scope_ns; [exact I| | | | | |apply stands_heap, I]; try reflexivity. apply better_units; try reflexivity.
  intros v ov Ev. cbn. destruct (Nat.eq_dec u v) as [->|N].
  - exists o'. rewrite nth_set_nth_eq by (eapply nth_lt; eauto). split; [reflexivity|]. assert (ov = o) by congruence. now subst.
  - exists ov. rewrite nth_set_nth_neq by exact N. auto.
Qed.
Lemma Forall2_imp {A C} (P Q : A -> C -> Prop) l1 l2 : (forall a c, P a c -> Q a c) -> Forall2 P l1 l2 -> Forall2 Q l1 l2.
Proof. intros H. induction 1; constructor; auto. Qed.
Definition clause_names_items (s : pst) (us : option (list nat)) (l : option uses_source) : Prop :=
  match us, l with Some us, Some l => names_items (s_heap s) (s_ctx s) us l | _, _ => True end.
Lemma d_change_names {B} uc u f o (k : unit -> prog B) sc s Q ws : in_scope sc s ws -> nth_error (h_units (s_heap s)) u = Some o ->
  un_map o = DNil \/ un_map (f o) = un_map o ->
  (forall s1, in_scope sc s1 ws -> nth_error (h_units (s_heap s1)) u = Some (f o) -> moved uc u s s1 ->
     (forall n e x, resolves (s_heap s) (s_ctx s) n e x -> resolves (s_heap s1) (s_ctx s1) n e x) -> wp (k tt) s1 Q) ->
  wp (Bind (change_unit u f) k) s Q.
Proof.
  intros I E M K. eapply d_onheap; [reflexivity|]. rewrite (put_unit_there _ _ o _ E).
  set (h1 := with_units (set_nth u (f o) (h_units (s_heap s))) (s_heap s)).
  assert (G : forall n, ctx_get h1 (s_ctx s) n = ctx_get (s_heap s) (s_ctx s) n).
  { intros n. destruct (sc_context _ _ _ _ I) as (oc & Ec & Kc). rewrite (ctx_get_plain (s_heap s) _ oc _ Ec Kc).
    rewrite (ctx_get_plain h1 _ oc _ Ec Kc). now apply dget_same_maps. }
  apply K.
  - now apply (in_scope_units sc s ws u o).
  - cbn. apply nth_set_nth_eq. eapply nth_lt; eauto.
  - apply moved_units. intros w N. apply nth_set_nth_neq. auto.
  - intros n e x (Ge & y & D & Y). split; [now rewrite <- (G n) in Ge|]. exists y. split; [|exact Y]. destruct e; exact D.
Qed.
Lemma d_change {B} uc u f o (k : unit -> prog B) sc s Q ws : in_scope sc s ws -> nth_error (h_units (s_heap s)) u = Some o ->
  un_map o = DNil \/ un_map (f o) = un_map o ->
  (forall s1, in_scope sc s1 ws -> nth_error (h_units (s_heap s1)) u = Some (f o) -> moved uc u s s1 -> wp (k tt) s1 Q) ->
  wp (Bind (change_unit u f) k) s Q.
Proof. intros I E M K. eapply d_change_names; eauto. Qed.
Lemma wp_ev_yields {A B} (p : prog A) (k : A -> prog B) s Q P : evolves p -> yields p P -> anchored s ->
  wp p s (fun a s1 => evolved s s1 -> P a -> wp (k a) s1 Q) -> wp (Bind p k) s Q.
Proof.
  intros Ev Y An H. apply wp_elim in H as (a & s1 & R & H). apply wp_bind. eapply wp_run; [exact R|]. apply H; [now apply Ev in R|now apply Y in R].
Qed.
Lemma says_of {A} (bare : A -> A) l l' : map bare l' = map bare l -> says bare (nonempty l') l.
Proof. intros E. unfold says. rewrite nonempty_map, E. now destruct l. Qed.

Section Level.
Context (m : nat) (uc u : nat).
Notation R := (recs_at m).
Lemma d_intf_body {B} o i l (k : unit -> prog B) sc s Q rest : nth_error (h_units (s_heap s)) u = Some o -> un_intf o = Some i -> un_map o = DNil ->
  length (flat_map (write_intf st) l) <= m -> in_scope sc s (flat_map (write_intf st) l ++ wkey "IMPLEMENTATION" :: rest) ->
  in_turn (fun d sc _ => good_intf st d sc) after_intf weof weof l sc ->
  (forall l' a s1, map bare_intf l' = map bare_intf l ->
     nth_error (h_units (s_heap s1)) u = Some (with_unit_map (DImpl a) (with_intf (Some (mkIntf (is_uses i) (nonempty l'))) o)) ->
     moved uc u s s1 -> length (h_maps (s_heap s)) <= a -> a < length (h_maps (s_heap s1)) -> away a s1 ->
     (distinct_names (entry_names l) -> answers_with (s_heap s1) (DImpl a) (entries l')) ->
     (forall oc, nth_error (h_ctxs (s_heap s)) (s_ctx s) = Some oc ->
        exists l, nth_error (h_ctxs (s_heap s1)) (s_ctx s1) = Some (mkCtx (cx_kind oc) (cx_path oc) (chain l (cx_map oc))) /\
          Forall (fun b => length (h_maps (s_heap s)) <= b) l) ->
     in_scope (behind_all after_intf l sc) s1 (wkey "IMPLEMENTATION" :: rest) -> wp (k tt) s1 Q) ->
  wp (Bind (parse_unit_intf_body R u) k) s Q.
Proof.
  intros Eo Ei Em L I G K. pose proof (context_anchored _ (sc_context _ _ _ _ I)) as An. unfold parse_unit_intf_body. fl.
  destruct (list_bounds (write_intf st) l ltac:(intros d; destruct (intf_first st d) as (x & ws & -> & _); discriminate)) as [L1 L2].
  eapply wp_ev_yields; [apply evolves_loop; intros; apply ev_intf_step|apply intf_decls_located|exact An|].
  apply wp_last. eapply (d_intf_loop text st m); [intros d J; apply intf_here; specialize (L2 d J); lia|rewrite fuel_level; lia|exact I|exact G|].
  intros l' s1 Eb I1. cbn [app]. apply wp_ret. intros V Lc. fl.
  pose proof (ev_units _ _ V) as Eu. rewrite <- Eu in Eo. set (h := s_heap s1) in *.
  set (o1 := with_intf (Some (mkIntf (is_uses i) (nonempty l'))) o). set (h1 := with_units (set_nth u o1 (h_units h)) h).
  set (a := length (h_maps h)). set (h2 := with_maps (h_maps h ++ [[]]) h1).
  assert (E1 : put_unit h u (fun o => with_intf (option_map (fun s => mkIntf (is_uses s) (nonempty l')) (un_intf o)) o) = h1).
  { rewrite (put_unit_there _ _ o _ Eo), Ei. reflexivity. }
  assert (Ea : nth_error (h_maps h2) a = Some []) by (apply nth_app_new).
  destruct (set_all_good a (flat_map intf_decl_nodes l') h2 []) as (h3 & S3 & m3 & ds3 & E3).
  { exact Ea. }
  { intros k0 v E. discriminate E. }
  { rewrite Forall_forall in Lc |- *. intros ds J. apply in_flat_map in J as (d & Jd & J). specialize (Lc d Jd). unfold decls_located in Lc. rewrite Forall_forall in Lc.
    specialize (Lc ds J). eapply Forall_impl; [|exact Lc]. intros x [X _]. exact X. }
  assert (U3 : nth_error (h_units h3) u = Some o1) by (rewrite E3; cbn; apply nth_set_nth_eq; eapply nth_lt; eauto).
  set (o4 := with_unit_map (DImpl a) o1). set (h4 := with_units (set_nth u o4 (h_units h3)) h3).
  eapply d_onheap.
  { fold h. cbv zeta. rewrite E1. unfold new_map. fold a. change (h_maps h1) with (h_maps h). fold h2. fold a. rewrite S3. rewrite (put_unit_there _ _ o1 _ U3). fold o4 h4. reflexivity. }
  assert (I2 : in_scope (behind_all after_intf l sc) (with_heap h1 s1) (wkey "IMPLEMENTATION" :: rest)).
  { apply (in_scope_units _ s1 _ u o); auto. }
  destruct (sc_context _ _ _ _ I1) as (oc & Ec & Kc). fold h in Ec.
  assert (Nm : forall b mb, nth_error (h_maps h) b = Some mb -> nth_error (h_maps h3) b = Some mb).
  { intros b mb E. assert (b < a) by (eapply nth_lt; eauto). rewrite E3. cbn. rewrite nth_set_nth_neq by (intros ->; lia).
    now rewrite nth_error_app1. }
  assert (L3 : length (h_maps h3) = S a).
  { rewrite E3. cbn. rewrite set_nth_length, app_length. cbn. unfold a. lia. }
  assert (I3 : in_scope (behind_all after_intf l sc) (with_heap h3 s1) (wkey "IMPLEMENTATION" :: rest)).
  { eapply in_scope_keep; [exact I2|exact Ec| | | | | | |apply stands_heap, I2].
    - cbn [with_heap s_heap s_ctx]. rewrite E3. exact Ec.
    - intros b mb E. exists mb. split; [now apply Nm|]. split; [auto|apply keeps_refl].
    - exists ds3. cbn [with_heap s_heap]. rewrite E3. reflexivity.
    - cbn [with_heap s_heap]. now rewrite E3.
    - cbn [with_heap s_heap]. now rewrite E3.
    - cbn [with_heap s_heap]. now rewrite E3. }
  assert (I4 : in_scope (behind_all after_intf l sc) (with_heap h4 s1) (wkey "IMPLEMENTATION" :: rest)).
  { apply (in_scope_units _ (with_heap h3 s1) _ u o1 o4 I3 U3). left. exact Em. }
  apply (K l' a); [exact Eb| | | | | | | |exact I4].
  - cbn. apply nth_set_nth_eq. eapply nth_lt; eauto.
  - eapply moved_trans; [apply evolved_moved; [exact An|exact V]|]. constructor; cbn [with_heap s_heap s_ctx]; auto.
    + exists []. rewrite app_nil_r. unfold h4. rewrite E3. reflexivity.
    + intros v N. unfold h4. cbn. rewrite nth_set_nth_neq by auto. rewrite E3. cbn. now rewrite nth_set_nth_neq by auto.
    + unfold h4. rewrite E3. reflexivity.
    + exists ds3. unfold h4. rewrite E3. reflexivity.
    + intros b mb E. exists mb. split; [now apply Nm|]. split; [auto|apply keeps_refl].
    + change (h_maps h4) with (h_maps h3). rewrite L3. fold h a. lia.
    + intros c o' E _ _. unfold h4. rewrite E3. exact E.
    + unfold h4. rewrite E3. cbn. auto.
    + intros b _ Aw o' E'. apply Aw. revert E'. unfold h4. cbn [with_heap s_heap s_ctx]. rewrite E3. auto.
    + intros c o' E'. exists o'. unfold h4. rewrite E3. auto.
  - apply (ev_len _ _ V).
  - cbn [with_heap s_heap]. change (h_maps h4) with (h_maps h3). lia.
  - intros o' E'. assert (o' = oc) as ->.
    { revert E'. unfold h4. cbn [with_heap s_heap s_ctx]. rewrite E3. cbn. congruence. }
    intros T. assert (a < length (h_maps h)); [|unfold a in *; lia]. eapply (target_there h (cx_map oc) a []); [exact T|].
    rewrite <- (ctx_get_plain _ _ oc _ Ec Kc). apply (sc_total _ _ _ _ I1).
  - intros N. assert (En : entry_names l' = entry_names l) by (rewrite <- (entry_names_bare l'), Eb; apply entry_names_bare).
    destruct (set_all_tells a (flat_map intf_decl_nodes l') h2 [] []) as (h' & m' & S' & M' & T').
    { exact Ea. }
    { split; [intros k0 v E; discriminate E|intros d []]. }
    { cbn [app]. rewrite entries_nodes. unfold distinct_names in N. rewrite <- En in N. exact N. }
    rewrite S3 in S'. injection S' as <-. cbn [app] in T'. rewrite entries_nodes in T'.
    apply (tells_answers _ _ m'); [exact M'|]. destruct T' as [T1 T2]. split; [exact T1|exact T2].
  - intros oc0 E0. destruct (ev_here _ _ V oc0 E0) as (l0 & H0 & F0). exists l0. split; [|exact F0].
    unfold h4. cbn [with_heap s_heap s_ctx]. rewrite E3. exact H0.
Qed.

Lemma enter_le sc : scope_le sc (enter sc).
Proof. unfold scope_le, enter. cbn. repeat match goal with |- _ /\ _ => split end; auto. Qed.
Lemma d_stack {B} (k : unit -> prog B) sc s Q ws : in_scope sc s ws -> uc < length (h_ctxs (s_heap s)) ->
  (forall s1, in_scope sc s1 ws -> moved uc u s s1 -> h_units (s_heap s1) = h_units (s_heap s) -> wp (k tt) s1 Q) ->
  wp (Bind (OnHeap (fun _ h => match ctx_stack h uc with Some (h1, _) => HOk tt h1 | None => HPanic end)) k) s Q.
Proof.
  intros I Lu K. destruct (nth_error (h_ctxs (s_heap s)) uc) as [ou|] eqn:Eu; [|apply nth_error_None in Eu; lia].
  assert (exists h1, ctx_stack (s_heap s) uc = Some (h1, cx_map ou)) as (h1 & ST).
  { unfold ctx_stack, new_chained, new_map. rewrite Eu. eauto. }
  eapply d_onheap; [now rewrite ST|].
  assert (F : h1 = ctx_put_map (with_maps (h_maps (s_heap s) ++ [[]]) (s_heap s)) uc (DChained (cx_map ou) (length (h_maps (s_heap s))))).
  { unfold ctx_stack, new_chained, new_map in ST. rewrite Eu in ST. now injection ST as <-. }
  set (h0 := with_maps (h_maps (s_heap s) ++ [[]]) (s_heap s)) in *.
  assert (Eu0 : nth_error (h_ctxs h0) uc = Some ou) by exact Eu.
  assert (X : h_uses h1 = h_uses h0 /\ h_units h1 = h_units h0 /\ h_progs h1 = h_progs h0 /\ h_maps h1 = h_maps h0 /\ h_decls h1 = h_decls h0).
  { rewrite F, ctx_put_map_maps, ctx_put_map_decls. unfold ctx_put_map. rewrite Eu0. auto. }
  destruct X as (X1 & X2 & X3 & X4 & X5).
  assert (Mv : moved uc u s (with_heap h1 s)).
  { constructor; cbn [with_heap s_heap s_ctx]; auto.
    - exists []. rewrite app_nil_r. exact X1.
    - intros v _. now rewrite X2.
    - exists []. rewrite app_nil_r. exact X5.
    - intros a mp E. exists mp. rewrite X4. cbn. rewrite nth_error_app1 by (eapply nth_lt; eauto). split; [exact E|]. split; [auto|apply keeps_refl].
    - rewrite X4. cbn. rewrite app_length. lia.
    - intros c oc E _ N. rewrite F, ctx_put_map_other by auto. exact E.
    - rewrite F, ctx_put_map_len. reflexivity.
    - intros a La Aw o' E'. cbn [with_heap s_heap s_ctx] in E'. rewrite F in E'. destruct (Nat.eq_dec uc (s_ctx s)) as [->|N].
      + rewrite (ctx_put_map_ctx h0 _ ou _ Eu0) in E'. injection E' as <-. cbn. intros [= E1]. lia.
      + rewrite ctx_put_map_other in E' by auto. now apply Aw.
    - intros c o' E'. rewrite F. destruct (Nat.eq_dec c uc) as [->|N].
      + rewrite (ctx_put_map_ctx h0 _ ou _ Eu0). rewrite Eu in E'. injection E' as <-. eexists. split; [reflexivity|]. auto.
      + rewrite ctx_put_map_other by auto. exists o'. auto. }
  apply K; [|exact Mv|exact X2]. destruct (Nat.eq_dec (s_ctx s) uc) as [E|N].
  - subst uc. eapply in_scope_le; [apply enter_le|]. eapply in_scope_enter; eauto.
  - destruct (sc_context _ _ _ _ I) as (oc & Ec & Kc).
    eapply in_scope_keep; [exact I|exact Ec| | | | | | |apply stands_heap, I]; cbn [with_heap s_heap s_ctx]; auto.
    + rewrite F, ctx_put_map_other by auto. exact Ec.
    + eapply same_maps_more. rewrite X4. reflexivity.
    + exists []. now rewrite app_nil_r.
Qed.
Lemma d_impl_uses {B} o l (k : list nat -> prog B) sc s Q w rest : uc < length (h_ctxs (s_heap s)) -> nth_error (h_units (s_heap s)) u = Some o ->
  good_clause l sc -> w <> wkey "USES" -> length (write_clause l) <= m ->
  in_scope sc s (wkey "IMPLEMENTATION" :: write_clause l ++ w :: rest) ->
  (forall us s1, clause_says (s_heap s1) us l -> nth_error (h_units (s_heap s1)) u = Some (with_impl (Some (mkImpl us None None)) o) ->
     moved uc u s s1 -> in_scope (after_clause l sc) s1 (w :: rest) -> clause_names_items s1 us l -> wp (k (or_nil us)) s1 Q) ->
  wp (Bind (parse_impl_uses R uc u) k) s Q.
Proof.
  intros Lu Eo (NE & D & Fr) Nw L I K. unfold parse_impl_uses. fl. eapply d_expect; [exact I|wd|]. intros t0 _. fl.
  eapply k_next; [exact I|apply app_nonempty; discriminate|]. intros t s1 I1 V1. fl.
  pose proof (evolved_moved uc u _ _ (context_anchored _ (sc_context _ _ _ _ I)) V1) as M1.
  eapply d_stack; [exact I1|pose proof (mv_ctxlen _ _ _ _ M1); lia|]. intros s2 I2 M2 U2. fl.
  assert (Eo2 : nth_error (h_units (s_heap s2)) u = Some o) by (rewrite U2, (ev_units _ _ V1); exact Eo).
  destruct l as [l|]; cbn [write_clause clause_names after_clause] in *.
  - assert (NE' : l <> []) by (intros ->; now apply NE). pose proof I2 as I2'. unfold write_uses in I2'. cbn [app] in I2'.
    eapply (d_is text _ s2 Q (kw "USES") true); [exact I2'|wd|]. fl.
    eapply (d_uses_clause text m l); [exact NE'|exact D|exact Fr| |exact I2|].
    { unfold write_uses in L. cbn [length] in L. rewrite app_length in L.
      pose proof (commas_count write_uses_item l) as C. cbn [length] in L. assert (length l <= length (commas (map write_uses_item l))); [|lia].
      apply C. rewrite Forall_forall. intros x _. unfold write_uses_item. discriminate. }
    intros us s3 Su _ Rn _ I3 Nm. fl.
    eapply (d_change_names uc u _ o); [exact I3|rewrite (ran_units _ _ Rn); exact Eo2|auto|]. intros s4 I4 U4 M4 Rs4. fl. change us with (or_nil (Some us)). apply K.
    + cbn. eapply say_moved; [exact M4|exact Su].
    + exact U4.
    + eapply moved_trans; [exact M1|]. eapply moved_trans; [exact M2|]. eapply moved_trans; [|exact M4]. apply ran_moved; [apply context_anchored, I2|exact Rn].
    + exact I4.
    + cbn [clause_names_items]. eapply Forall2_imp; [|exact Nm]. cbn. intros a i Hn x E. destruct (Hn x E) as (d & Rd). eauto.
  - cbn [app] in I2. eapply (d_is text _ s2 Q (kw "USES") false); [exact I2|intros t1 W1; rewrite kw_w, W1; now apply weqb_neq|]. fl.
    eapply (d_change uc u _ o); [exact I2|exact Eo2|auto|]. intros s4 I4 U4 M4. fl. apply (K None); [exact Logic.I|exact U4| |exact I4|exact Logic.I].
    eapply moved_trans; [exact M1|]. eapply moved_trans; [exact M2|exact M4].
Qed.
Definition impl_words : list string := ["INITIALIZATION"; "END"]%string.
Lemma d_impl_body {B} o i ds ex (k : unit -> prog B) sc s Q x rest : nth_error (h_units (s_heap s)) u = Some o -> un_impl o = Some i ->
  length (flat_map (write_section st) ds) <= m -> length (flat_map (write_exports st) ex) <= m ->
  In x impl_words -> in_scope sc s (flat_map (write_section st) ds ++ flat_map (write_exports st) ex ++ wkey x :: rest) ->
  in_turn (fun d sc _ => good_section st d sc) after_section weof weof ds sc ->
  Forall (fun x => x <> [] /\ Forall (good_export (behind_all after_section ds sc)) x) ex ->
  (forall ds' ex' s1, says bare_section ds' ds -> says (map bare_export) ex' ex ->
     nth_error (h_units (s_heap s1)) u = Some (with_impl (Some (mkImpl (im_uses i) ds' ex')) o) ->
     moved uc u s s1 -> in_scope (behind_all after_section ds sc) s1 (wkey x :: rest) -> wp (k tt) s1 Q) ->
  wp (Bind (parse_impl_body R u) k) s Q.
Proof.
  intros Eo Ei L1 L2 Jx I G Ge K. unfold parse_impl_body. fl. pose proof (recs_at_evolve m) as RE.
  assert (exists y ws, flat_map (write_exports st) ex ++ wkey x :: rest = wkey y :: ws /\ In y no_section_words) as (y & ws & Ey & Jy).
  { destruct ex as [|e ex]; cbn [flat_map app]; (eexists _, _; split; [reflexivity|]); [|cbn; auto].
    unfold impl_words in Jx. unfold no_section_words. cbn in *. tauto. }
  destruct (list_bounds (write_section st) ds ltac:(intros d; destruct (section_first st d) as (y' & ws' & -> & _); discriminate)) as [B1 B2].
  eapply wp_ev; [apply ev_parse_decl_sections, RE|apply context_anchored, I|]. apply wp_last. unfold parse_decl_sections. fl.
  rewrite Ey in I. eapply (d_sections_loop text st m _ ds); [intros d J; apply sections_at; specialize (B2 d J); lia|rewrite fuel_level; lia|exact Jy|exact I|exact G|].
  intros ds' s1 Ed I1. fl. cbn [app]. apply wp_ret. intros V1. fl. rewrite <- Ey in I1.
  pose proof (evolved_moved uc u _ _ (context_anchored _ (sc_context _ _ _ _ I)) V1) as M1.
  eapply (d_change uc u _ o); [exact I1|rewrite (ev_units _ _ V1); exact Eo|auto|]. intros s2 I2 U2 M2. fl.
  eapply wp_ev; [apply ev_parse_exports_stmts, RE|apply context_anchored, I2|]. apply wp_last.
  assert (Ex : flat_map (write_exports st) ex = match nonempty ex with None => [] | Some l => flat_map (write_exports st) l end) by (now destruct ex).
  rewrite Ex in I2. eapply (d_exports text st m (nonempty ex)); [| | |exact I2|].
  { destruct Jx as [<-|[<-|[]]]; discriminate. }
  { destruct ex; [exact Logic.I|]. split; [discriminate|exact Ge]. }
  { rewrite <- Ex. exact L2. }
  intros ex' s3 Eex I3. apply wp_ret. intros V3. fl.
  eapply (d_change uc u _ _); [exact I3|rewrite (ev_units _ _ V3); exact U2|auto|]. intros s4 I4 U4 M4. fl.
  eapply (d_is text _ s4 Q (sym ";") false); [exact I4|intros t W; rewrite sym_w, W; reflexivity|]. fl.
  apply (K (nonempty ds') ex'); [now apply says_of| | | |exact I4].
  - unfold says. rewrite Eex, nonempty_map. now destruct ex.
  - rewrite U4, Ei. reflexivity.
  - eapply moved_trans; [exact M1|]. eapply moved_trans; [exact M2|]. eapply moved_trans; [|exact M4]. apply evolved_moved; [apply context_anchored, I2|exact V3].
Qed.
Lemma stmts_w l x rest : semicolons (map (write_stmt (statements st)) l) ++ last_semi (statements st) ++ wkey x :: rest = write_stmts st l ++ wkey x :: rest.
Proof. unfold write_stmts. now rewrite <- app_assoc. Qed.
Lemma d_list {B} x term l (k : list stmt -> prog B) sc s Q rest : In x ["END"; "FINALIZATION"]%string ->
  (term = kw x \/ term = p_some [kw "FINALIZATION"; kw "END"]) -> length (write_stmts st l) < m ->
  in_scope sc s (write_stmts st l ++ wkey x :: rest) -> good_stmts st l x sc ->
  (forall l' s1, map bare_stmt l' = map bare_stmt l -> evolved s s1 ->
     in_scope (declare (flat_map handler_vars l) sc) s1 (wkey x :: rest) -> wp (k l') s1 Q) ->
  wp (Bind (parse_stmt_list R term) k) s Q.
Proof.
  intros Jx Ht L I [G Md] K. eapply wp_ev; [apply ev_parse_stmt_list, recs_at_evolve|apply context_anchored, I|]. apply wp_last.
  eapply (d_stmts text m (statements st) x term l).
  - destruct Jx as [<-|[<-|[]]]; apply win_iff; vm_compute; reflexivity.
  - destruct Jx as [<-|[<-|[]]]; vm_compute; reflexivity.
  - destruct Ht as [->| ->]; [now left|]. right. exists "FINALIZATION"%string, "END"%string. split; [cbn in *; tauto|]. split; [reflexivity|]. split; vm_compute; reflexivity.
  - rewrite stmts_w. exact I.
  - unfold write_stmts in L. rewrite app_length in L. lia.
  - exact G.
  - exact Md.
  - intros l' s1 E I1. apply wp_ret. intros V. now apply K.
Qed.
Lemma d_unit_end {B} o x (k : unit -> prog B) sc s Q w rest : nth_error (h_units (s_heap s)) u = Some o -> un_init o = None ->
  length (write_init st x) <= m -> in_scope sc s (write_init st x ++ wkey "END" :: wsym "." :: w :: rest) -> good_init st x sc ->
  (forall i s1, init_says i x -> nth_error (h_units (s_heap s1)) u = Some (with_init i o) -> moved uc u s s1 ->
     stands text s1 (wsym "." :: w :: rest) -> wp (k tt) s1 Q) ->
  wp (Bind (parse_unit_end R u) k) s Q.
Proof.
  intros Eo Ei L I G K. unfold parse_unit_end. fl.
  assert (Fin : forall i o1 sc1 s1, init_says i x -> o1 = with_init i o -> nth_error (h_units (s_heap s1)) u = Some o1 -> moved uc u s s1 ->
    in_scope sc1 s1 (wkey "END" :: wsym "." :: w :: rest) ->
    wp (expect (kw "END") ;;; a <- (expect_next (sym ".") ;;; Ret tt) ;; k a) s1 Q).
  { intros i o1 sc1 s1 Si -> U1 M1 I1. eapply d_expect; [exact I1|wd|]. intros t0 _. fl. eapply k_expect_next; [exact I1|wd|]. intros t s2 _ I2 V2. fl.
    apply (K i); [exact Si|rewrite (ev_units _ _ V2); exact U1| |apply I2]. eapply moved_trans; [exact M1|]. apply evolved_moved; [apply context_anchored, I1|exact V2]. }
  destruct x as [[l f]|]; cbn [write_init] in *.
  - cbn [app length] in I, L. rewrite <- app_assoc in I. rewrite app_length in L.
    eapply (d_is text _ s Q (kw "INITIALIZATION") true); [exact I|wd|]. fl. unfold parse_init_section. fl.
    eapply d_expect; [exact I|wd|]. intros t0 _. fl. eapply k_next; [exact I|apply app_nonempty, app_nonempty; discriminate|]. intros t s1 I1 V1. fl.
    pose proof (evolved_moved uc u _ _ (context_anchored _ (sc_context _ _ _ _ I)) V1) as M1.
    destruct f as [f|]; cbn [app length] in I1, L.
    + destruct G as [G1 G2]. rewrite <- ?app_assoc in I1.
      eapply (d_list "FINALIZATION" _ l); [cbn; auto|now right|lia|exact I1|exact G1|]. intros l' s2 El V2 I2. fl.
      eapply (d_is text _ s2 Q (kw "FINALIZATION") true); [exact I2|wd|]. fl. eapply k_next; [exact I2|apply app_nonempty; discriminate|]. intros t1 s3 I3 V3. fl.
      eapply (d_list "END" _ f); [cbn; auto|now left|lia|exact I3|exact G2|]. intros f' s4 Ef V4 I4. fl.
      eapply (d_change uc u _ o); [exact I4|rewrite (ev_units _ _ V4), (ev_units _ _ V3), (ev_units _ _ V2), (ev_units _ _ V1); exact Eo|auto|]. intros s5 I5 U5 M5. fl.
      eapply Fin; [|reflexivity|exact U5| |exact I5].
      * split; cbn; now apply says_of.
      * eapply moved_trans; [exact M1|]. eapply moved_trans; [apply evolved_moved; [apply context_anchored, I1|exact V2]|].
        eapply moved_trans; [apply evolved_moved; [apply context_anchored, I2|exact V3]|]. eapply moved_trans; [apply evolved_moved; [apply context_anchored, I3|exact V4]|exact M5].
    + eapply (d_list "END" _ l); [cbn; auto|now right|lia|exact I1|exact G|]. intros l' s2 El V2 I2. fl.
      eapply (d_is text _ s2 Q (kw "FINALIZATION") false); [exact I2|wd|]. fl.
      eapply (d_change uc u _ o); [exact I2|rewrite (ev_units _ _ V2), (ev_units _ _ V1); exact Eo|auto|]. intros s5 I5 U5 M5. fl.
      eapply Fin; [|reflexivity|exact U5| |exact I5].
      * split; cbn; [now apply says_of|reflexivity].
      * eapply moved_trans; [exact M1|]. eapply moved_trans; [apply evolved_moved; [apply context_anchored, I1|exact V2]|exact M5].
  - cbn [app] in I. eapply (d_is text _ s Q (kw "INITIALIZATION") false); [exact I|wd|]. fl.
    eapply (Fin None o); [exact Logic.I| |exact Eo|apply moved_refl|exact I]. destruct o. cbn in *. now rewrite Ei.
Qed.
End Level.
End WithUnicode.
