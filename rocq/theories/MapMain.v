(** Proofs of the properties of declaration maps and contexts. *)
From Coq Require Import String List NArith Bool Arith Lia.
From Verif Require Import ListUtil Runes UnicodeFacts LexShape Token Ast Ext ExtSpec ExtMain Heap MapSpec MapFacts.
Import ListNotations.

Section WithUnicode.
Context {U : Unicode} {UOK : UnicodeOk U}.

(** ** One map over its history *)

Theorem map_history :
  forall h a cs h' rs,
    nth_error (h_maps h) a = Some [] ->
    do_calls h (DImpl a) cs = Some (h', rs) ->
    rs = snd (log_calls [] cs) /\
    forall name, dget h' (DImpl a) name = told (latest (fst (log_calls [] cs)) name).
Proof.
  intros h a cs h' rs E C.
  destruct (do_calls_log h (DImpl a) a [] [] cs h' rs eq_refl E holds_nil C) as (m & E' & H & A).
  split; [auto|]. intros name. cbn [dget]. eapply impl_get_told; eauto.
Qed.

Lemma latest_app l1 l2 n : latest (l1 ++ l2) n = match latest l1 n with Some d => Some d | None => latest l2 n end.
Proof. induction l1 as [|[k d] l1 IH]; cbn; auto. destruct (same_nameb k n); auto. Qed.
Lemma log_set_grows l ds : exists new, fst (log_set l ds) = new ++ l /\
  forall n d, In (n, d) new -> In n (map (fun p => i_name (fst p)) ds).
Proof.
  revert l. induction ds as [|[i d] ds IH]; intros l; cbn [log_set].
  - exists []. split; [reflexivity|]. intros ? ? [].
  - destruct (latest l (i_name i)).
    + exists []. split; [reflexivity|]. intros ? ? [].
    + destruct (IH ((i_name i, Some d) :: l)) as (new & E & H).
      exists (new ++ [(i_name i, Some d)]). split.
      * rewrite E, <- app_assoc. reflexivity.
      * intros n x I. apply in_app_or in I. cbn. destruct I as [I|[[= <- <-]|[]]]; eauto.
Qed.
Lemma latest_none l n : (forall k d, In (k, d) l -> ~ same_name k n) -> latest l n = None.
Proof.
  induction l as [|[k d] l IH]; intros H; cbn; auto.
  destruct (same_nameb_spec k n) as [E|E]; [|apply IH; intros; eapply H; right; eauto].
  exfalso. eapply H; [left; reflexivity|auto].
Qed.
Lemma log_call_other l c n : (forall k, In k (mentions c) -> ~ same_name k n) -> latest (fst (log_call l c)) n = latest l n.
Proof.
  destruct c as [ds|k d]; cbn [log_call mentions]; intros H.
  - destruct (log_set_grows l ds) as (new & -> & G). rewrite latest_app, latest_none; auto.
    intros k d I. apply H. eapply G; eauto.
  - cbn. destruct (same_nameb_spec k n) as [E|E]; auto. exfalso. eapply H; eauto. now left.
Qed.

Lemma impl_get_holds h a m name :
  nth_error (h_maps h) a = Some m -> impl_get h a name = told (mget (to_lower name) m).
Proof. intros E. unfold impl_get, regularize, told. now rewrite E. Qed.

Lemma impl_set_other h a ds name :
  (forall i d, In (i, d) ds -> ~ same_name (i_name i) name) ->
  match impl_set h a ds with
  | SOk h' | SErr h' _ => forall b, impl_get h' b name = impl_get h b name
  | SPanic => True
  end.
Proof.
  revert h. induction ds as [|[i d] ds IH]; intros h N; cbn [impl_set]; auto.
  destruct (nth_error (h_maps h) a) as [m|] eqn:E; auto.
  destruct (mget _ m) as [[old|]|]; auto.
  - destruct (i_loc i); auto. destruct (option_map _ _) as [[?|]|]; auto.
  - specialize (IH (with_maps (set_nth a (mput (regularize (i_name i)) (Some d) m) (h_maps h)) h)).
    assert (X : forall b, impl_get (with_maps (set_nth a (mput (regularize (i_name i)) (Some d) m) (h_maps h)) h) b name
                = impl_get h b name).
    { intros b. unfold impl_get. cbn. destruct (Nat.eq_dec a b) as [<-|D].
      - rewrite nth_set_nth_eq by (eapply nth_lt; eauto). rewrite E. unfold regularize.
        rewrite mget_put_neq; auto. intros Q. apply (N i d); [now left|]. now unfold same_name.
      - now rewrite nth_set_nth_neq by auto. }
    destruct (impl_set _ a ds); auto; intros b; rewrite <- X; apply IH; intros; apply (N _ d0); now right.
Qed.
Lemma dget_impls h h' m name :
  (forall b, impl_get h' b name = impl_get h b name) -> dget h' m name = dget h m name.
Proof.
  intros X. induction m as [a|p a IH|ms IH| |] using dmap_ind'; auto.
  - apply X.
  - cbn [dget]. now rewrite X, IH.
  - rewrite !dget_composite. f_equal. apply map_ext_in. intros m I. rewrite Forall_forall in IH. auto.
Qed.
Lemma do_call_other h m c h' r name :
  (forall k, In k (mentions c) -> ~ same_name k name) -> do_call h m c = Some (h', r) ->
  forall b, impl_get h' b name = impl_get h b name.
Proof.
  intros N. destruct c as [ds|k d]; cbn [do_call mentions] in *.
  - intros C. assert (N' : forall i d, In (i, d) ds -> ~ same_name (i_name i) name).
    { intros i d I. apply N. apply in_map_iff. exists (i, d). auto. }
    destruct (target m) as [a|] eqn:T.
    + rewrite (dset_impl h m a ds T) in C. pose proof (impl_set_other h a ds name N') as X.
      destruct (impl_set h a ds); inversion C; subst; auto.
    + assert (h' = h); [|subst; auto].
      destruct (dset h m ds) as [x|x i|] eqn:E; inversion C; subst;
        pose proof (dset_target h m ds h') as Y; rewrite T in Y; apply Y; eauto.
  - destruct (doverwrite h m k d) as [x|] eqn:E; intros [= <- <-].
    destruct (target m) as [a|] eqn:T.
    + rewrite (doverwrite_impl h m a k d T) in E. unfold impl_overwrite in E.
      destruct (nth_error (h_maps h) a) as [mo|] eqn:M; try discriminate. inversion E; subst.
      intros b. unfold impl_get. cbn. destruct (Nat.eq_dec a b) as [<-|D].
      * rewrite nth_set_nth_eq by (eapply nth_lt; eauto). rewrite M. unfold regularize.
        rewrite mget_put_neq; auto. intros Q. apply (N k); [now left|]. now unfold same_name.
      * now rewrite nth_set_nth_neq by auto.
    + pose proof (doverwrite_target h m k d x E) as Y. rewrite T in Y. now subst.
Qed.

Theorem calls_leave_other_names :
  forall h m cs h' rs name,
    do_calls h m cs = Some (h', rs) ->
    (forall c n, In c cs -> In n (mentions c) -> ~ same_name n name) ->
    dget h' m name = dget h m name.
Proof.
  intros h m cs. revert h. induction cs as [|c cs IH]; intros h h' rs name C N; cbn [do_calls] in C.
  - now inversion C.
  - destruct (do_call h m c) as [[h1 a]|] eqn:E; try discriminate.
    destruct (do_calls h1 m cs) as [[h2 r]|] eqn:E2; try discriminate. inversion C; subst.
    rewrite (IH h1 h' r name E2) by (intros; apply (N c0); auto; now right).
    apply dget_impls. eapply do_call_other; eauto. intros k I. apply (N c); auto. now left.
Qed.

Theorem overwrite_then_get :
  forall h m a name n d h',
    target m = Some a ->
    doverwrite h m name (Some d) = Some h' -> same_name n name ->
    dget h' m n = LFound d.
Proof.
  intros h m a name n d h' T E S.
  assert (X : impl_get h' a n = LFound d).
  { rewrite (doverwrite_impl h m a name _ T) in E. unfold impl_overwrite in E.
    destruct (nth_error (h_maps h) a) as [mo|] eqn:M; try discriminate. inversion E; subst.
    unfold impl_get. cbn. rewrite nth_set_nth_eq by (eapply nth_lt; eauto).
    unfold regularize. rewrite S. now rewrite mget_put_eq. }
  clear E. induction m as [b|p b IH|ms IH| |] using dmap_ind'; cbn [target] in T; try congruence.
  - inversion T; subst. apply X.
  - inversion T; subst. cbn [dget]. now rewrite X.
  - destruct ms as [|m ms]; try congruence. apply Forall_inv in IH.
    rewrite dget_composite. cbn. now rewrite (IH T).
Qed.

Theorem get_ignores_case :
  forall h m n1 n2,
    to_lower n1 = to_lower n2 -> to_upper n1 = to_upper n2 -> dget h m n1 = dget h m n2.
Proof.
  intros h m n1 n2 L P. induction m as [a|p a IH|ms IH| |] using dmap_ind'; auto.
  - cbn. unfold impl_get, regularize. now rewrite L.
  - cbn [dget]. rewrite IH. unfold impl_get, regularize. now rewrite L.
  - rewrite !dget_composite. f_equal. apply map_ext_in. intros m I. rewrite Forall_forall in IH. auto.
  - cbn. unfold embedded_get. now rewrite P.
Qed.

(** ** Refusing to redeclare *)

Lemma dget_impl_bound h a m name d :
  nth_error (h_maps h) a = Some m -> dget h (DImpl a) name = LFound d -> mget (to_lower name) m = Some (Some d).
Proof.
  intros E. cbn. rewrite (impl_get_holds h a m name E). unfold told.
  destruct (mget _ m) as [[?|]|]; congruence.
Qed.

Lemma deref_maps h v d : deref (with_maps v h) d = deref h d.
Proof. now destruct d. Qed.

Theorem set_refuses_redeclaration :
  forall h m a mo ds i d old,
    target m = Some a -> nth_error (h_maps h) a = Some mo ->
    In (i, d) ds -> dget h (DImpl a) (i_name i) = LFound old ->
    (forall n, mget (to_lower n) mo <> Some None) ->
    (forall n e, dget h (DImpl a) n = LFound e -> located h e) ->
    (forall j e, In (j, e) ds -> i_loc j <> None /\ located h e) ->
    exists h' j, dset h m ds = SErr h' j /\ In j (map fst ds) /\
      forall n e, dget h (DImpl a) n = LFound e -> dget h' (DImpl a) n = LFound e.
Proof.
  intros h m a mo ds i d old T E I G N B L. rewrite (dset_impl h m a ds T). clear m T.
  revert h mo E I G N B L. induction ds as [|[j e] ds IH]; intros h mo E I G N B L; [destruct I|].
  cbn [impl_set]. rewrite E. unfold regularize.
  destruct (mget (to_lower (i_name j)) mo) as [[o|]|] eqn:K.
  - assert (X : dget h (DImpl a) (i_name j) = LFound o).
    { cbn. rewrite (impl_get_holds h a mo _ E), K. reflexivity. }
    destruct (B _ _ X) as (od & D & P). rewrite D. cbn [option_map].
    destruct (L j e) as [Lj _]; [now left|].
    destruct (i_loc j); [|congruence]. destruct (i_loc (d_ident od)); [|congruence].
    eexists h, j. cbn. auto.
  - now apply N in K.
  - destruct I as [[= -> ->]|I].
    { apply (dget_impl_bound h a mo _ _ E) in G. congruence. }
    set (h1 := with_maps (set_nth a (mput (to_lower (i_name j)) (Some e) mo) (h_maps h)) h).
    assert (E1 : nth_error (h_maps h1) a = Some (mput (to_lower (i_name j)) (Some e) mo)).
    { apply nth_set_nth_eq. eapply nth_lt; eauto. }
    assert (Q : forall n, dget h1 (DImpl a) n =
      if same_nameb (i_name j) n then LFound e else dget h (DImpl a) n).
    { intros n. cbn [dget]. rewrite (impl_get_holds h1 a _ _ E1), (impl_get_holds h a _ _ E).
      destruct (same_nameb_spec (i_name j) n) as [S|S]; unfold same_name in S.
      - rewrite <- S, mget_put_eq. reflexivity.
      - rewrite mget_put_neq by congruence. reflexivity. }
    assert (Keep : forall n x, dget h (DImpl a) n = LFound x -> dget h1 (DImpl a) n = LFound x).
    { intros n x Y. rewrite Q. destruct (same_nameb_spec (i_name j) n) as [S|S]; auto.
      apply (dget_impl_bound h a mo _ _ E) in Y. unfold same_name in S. congruence. }
    destruct (IH h1 _ E1 I (Keep _ _ G)) as (h' & k & R & Ik & F).
    + intros n. destruct (runes_eqb_spec (to_lower n) (to_lower (i_name j))) as [S|S].
      * rewrite S, mget_put_eq. congruence.
      * rewrite mget_put_neq by congruence. apply N.
    + intros n x. rewrite Q. destruct (same_nameb (i_name j) n).
      * intros [= <-]. destruct (L j e) as [_ X]; [now left|]. unfold located, h1. rewrite deref_maps. exact X.
      * intros Y. unfold located, h1. rewrite deref_maps. eapply B; eauto.
    + intros k x J. destruct (L k x) as [X Y]; [now right|]. split; [exact X|]. unfold located, h1. rewrite deref_maps. exact Y.
    + exists h', k. split; [exact R|]. split; [right; exact Ik|]. intros n x Y. apply F, Keep, Y.
Qed.

Lemma dget_target_found h m a name d :
  target m = Some a -> impl_get h a name = LFound d -> dget h m name = LFound d.
Proof.
  intros T X. induction m as [b|p b IH|ms IH| |] using dmap_ind'; cbn [target] in T; try congruence.
  - inversion T; subst. apply X.
  - inversion T; subst. cbn [dget]. now rewrite X.
  - destruct ms as [|m ms]; try congruence. apply Forall_inv in IH.
    rewrite dget_composite. cbn. now rewrite (IH T).
Qed.

Theorem set_binds_new_names :
  forall h m a mo ds,
    target m = Some a -> nth_error (h_maps h) a = Some mo ->
    (forall i d, In (i, d) ds -> mget (to_lower (i_name i)) mo = None) ->
    NoDup (map (fun p => to_lower (i_name (fst p))) ds) ->
    exists h', dset h m ds = SOk h' /\
      (forall i d n, In (i, d) ds -> same_name n (i_name i) -> dget h' m n = LFound d) /\
      (forall n, (forall i d, In (i, d) ds -> ~ same_name (i_name i) n) -> dget h' m n = dget h m n).
Proof.
  intros h m a mo ds T E N D.
  assert (X : exists h', impl_set h a ds = SOk h' /\
    (forall i d n, In (i, d) ds -> same_name n (i_name i) -> impl_get h' a n = LFound d) /\
    (forall n, (forall i d, In (i, d) ds -> ~ same_name (i_name i) n) -> impl_get h' a n = impl_get h a n)).
  { revert h mo E N. induction ds as [|[i d] ds IH]; intros h mo E N.
    - exists h. repeat split; auto. intros ? ? ? [].
    - cbn [impl_set]. rewrite E. unfold regularize. rewrite (N i d) by now left.
      apply NoDup_cons_iff in D. destruct D as [D1 D2]. cbn in D1.
      set (h1 := with_maps (set_nth a (mput (to_lower (i_name i)) (Some d) mo) (h_maps h)) h).
      assert (E1 : nth_error (h_maps h1) a = Some (mput (to_lower (i_name i)) (Some d) mo)).
      { apply nth_set_nth_eq. eapply nth_lt; eauto. }
      destruct (IH D2 h1 _ E1) as (h' & R & F1 & F2).
      { intros j e J. rewrite mget_put_neq; [apply (N j e); now right|].
        intros Q. apply D1. rewrite <- Q. apply in_map_iff. exists (j, e). auto. }
      exists h'. split; [exact R|]. split.
      + intros j e n [[= -> ->]|J] S; [|eapply F1; eauto].
        rewrite F2.
        * rewrite (impl_get_holds h1 a _ _ E1). unfold same_name in S. rewrite S, mget_put_eq. reflexivity.
        * intros k x K Q. apply D1. unfold same_name in *. rewrite <- S, <- Q. apply in_map_iff. exists (k, x). auto.
      + intros n Q. rewrite F2 by (intros k x K; apply (Q k x); now right).
        rewrite (impl_get_holds h1 a _ _ E1), (impl_get_holds h a _ _ E).
        rewrite mget_put_neq; auto. intros Y. apply (Q i d); [now left|]. now unfold same_name. }
  destruct X as (h' & R & F1 & F2). exists h'. rewrite (dset_impl h m a ds T). split; [exact R|]. split.
  - intros i d n I S. eapply dget_target_found; eauto.
  - intros n Q. apply dget_impls. intros b. destruct (Nat.eq_dec a b) as [<-|Z]; auto.
    apply impl_get_agree. pose proof (impl_set_only h a ds) as O. rewrite R in O. apply (on_maps _ _ _ O). auto.
Qed.

(** ** Scopes *)

Lemma new_chained_facts h p h1 m :
  new_chained h p = (h1, m) ->
  m = DChained p (length (h_maps h)) /\ h1 = with_maps (h_maps h ++ [[]]) h.
Proof. intros [= <- <-]. auto. Qed.
Lemma nth_app_new {A} (l : list A) x : nth_error (l ++ [x]) (length l) = Some x.
Proof. rewrite nth_error_app2, Nat.sub_diag; auto. Qed.
Lemma allocated_not_new h m : allocated h m -> ~ In (length (h_maps h)) (addrs m).
Proof. unfold allocated. rewrite Forall_forall. intros A I. apply A in I. lia. Qed.
Lemma dget_new_map h m v name : allocated h m -> dget (with_maps (h_maps h ++ v) h) m name = dget h m name.
Proof.
  intros A. apply dget_agree. intros a I. unfold agree. cbn. apply nth_error_app1.
  unfold allocated in A. rewrite Forall_forall in A. auto.
Qed.

Theorem inner_scope_shadows :
  forall h p h1 m cs h2 rs,
    allocated h p -> new_chained h p = (h1, m) -> do_calls h1 m cs = Some (h2, rs) ->
    rs = snd (log_calls [] cs) /\
    forall name,
      dget h2 p name = dget h p name /\
      dget h2 m name = first_found [scope_says cs name; dget h p name].
Proof.
  intros h p h1 m cs h2 rs A C D. destruct (new_chained_facts _ _ _ _ C) as [-> ->].
  set (h1 := with_maps (h_maps h ++ [[]]) h) in *.
  assert (E : nth_error (h_maps h1) (length (h_maps h)) = Some []) by apply nth_app_new.
  destruct (do_calls_log _ (DChained p (length (h_maps h))) _ [] [] cs h2 rs eq_refl E holds_nil D) as (m' & E' & H & R).
  split; [auto|]. intros name.
  assert (P : dget h2 p name = dget h p name).
  { pose proof (do_calls_target _ _ _ _ _ D) as O. cbn in O.
    rewrite (dget_only _ _ _ p name O) by now apply allocated_not_new. now apply dget_new_map. }
  split; [exact P|]. cbn [dget first_found]. rewrite P.
  rewrite (impl_get_told _ _ _ _ name E' H). unfold scope_says.
  destruct (told _); auto. now destruct (dget h p name).
Qed.

Theorem inner_scope_may_redeclare :
  forall h p h1 m ds,
    new_chained h p = (h1, m) -> NoDup (map (fun q => to_lower (i_name (fst q))) ds) ->
    exists h2, dset h1 m ds = SOk h2 /\
      forall i d n, In (i, d) ds -> same_name n (i_name i) -> dget h2 m n = LFound d.
Proof.
  intros h p h1 m ds C N. destruct (new_chained_facts _ _ _ _ C) as [-> ->].
  edestruct (set_binds_new_names (with_maps (h_maps h ++ [[]]) h) (DChained p (length (h_maps h)))
    (length (h_maps h)) [] ds eq_refl) as (h2 & R & F & _); auto.
  - apply nth_app_new.
  - eauto.
Qed.

(** ** Composite maps *)

Lemma first_found_some l d :
  first_found l = LFound d <-> exists pre post, l = pre ++ LFound d :: post /\ Forall (fun x => x = LNil) pre.
Proof.
  split.
  - induction l as [|x l IH]; cbn; try discriminate. destruct x.
    + intros E. destruct (IH E) as (pre & post & -> & F). exists (LNil :: pre), post. auto.
    + intros [= ->]. exists [], l. auto.
    + discriminate.
  - intros (pre & post & -> & F). induction F as [|x pre -> F IH]; auto.
Qed.
Lemma first_found_none l : first_found l = LNil <-> Forall (fun x => x = LNil) l.
Proof.
  split.
  - induction l as [|x l IH]; cbn; auto. destruct x; try discriminate. auto.
  - induction 1 as [|x l -> F IH]; auto.
Qed.

Theorem composite_finds_first :
  forall h ms name d,
    dget h (DComposite ms) name = LFound d <->
    exists pre m post, ms = pre ++ m :: post /\
      Forall (fun m' => dget h m' name = LNil) pre /\ dget h m name = LFound d.
Proof.
  intros h ms name d. rewrite dget_composite, first_found_some. split.
  - intros (pre & post & E & F). apply map_eq_app in E. destruct E as (p1 & p2 & -> & <- & E).
    destruct p2 as [|m p2]; try discriminate. cbn in E. inversion E as [[E1 E2]].
    exists p1, m, p2. repeat split; auto. now apply Forall_map in F.
  - intros (pre & m & post & -> & F & E). exists (map (fun m => dget h m name) pre), (map (fun m => dget h m name) post).
    rewrite map_app. cbn. rewrite E. split; auto. now apply Forall_map.
Qed.

Theorem composite_finds_none :
  forall h ms name,
    dget h (DComposite ms) name = LNil <-> Forall (fun m => dget h m name = LNil) ms.
Proof. intros h ms name. rewrite dget_composite, first_found_none. apply Forall_map. Qed.

Theorem composite_writes_first :
  forall h m ms cs h' rs,
    do_calls h (DComposite (m :: ms)) cs = Some (h', rs) ->
    do_calls h m cs = Some (h', rs) /\
    forall m' name, (forall a, target m = Some a -> ~ In a (addrs m')) -> dget h' m' name = dget h m' name.
Proof.
  intros h m ms cs h' rs D.
  assert (X : forall cs h, do_calls h (DComposite (m :: ms)) cs = do_calls h m cs).
  { induction cs0 as [|c cs0 IH]; intros h0; auto. cbn [do_calls].
    assert (do_call h0 (DComposite (m :: ms)) c = do_call h0 m c) as -> by (destruct c; reflexivity).
    destruct (do_call h0 m c) as [[? ?]|]; auto. now rewrite IH. }
  rewrite X in D. split; [exact D|]. intros m' name N.
  pose proof (do_calls_target _ _ _ _ _ D) as O. destruct (target m) as [a|]; [|now subst].
  eapply dget_only; eauto.
Qed.

(** ** Finding by name *)

Lemma find_name_some {A} (nm : A -> gostring) l name x :
  find_name nm l name = Some x <->
  exists pre post, l = pre ++ x :: post /\ same_name (nm x) name /\ Forall (fun y => ~ same_name (nm y) name) pre.
Proof.
  split.
  - induction l as [|y l IH]; cbn; try discriminate.
    destruct (runes_eqb_spec (to_lower (nm y)) (to_lower name)) as [S|S].
    + intros [= ->]. exists [], l. auto.
    + intros E. destruct (IH E) as (pre & post & -> & H & F). exists (y :: pre), post. auto.
  - intros (pre & post & -> & H & F). induction F as [|y pre N F IH]; cbn.
    + destruct (runes_eqb_spec (to_lower (nm x)) (to_lower name)); auto. contradiction.
    + destruct (runes_eqb_spec (to_lower (nm y)) (to_lower name)); auto. contradiction.
Qed.
Lemma find_name_none {A} (nm : A -> gostring) l name :
  find_name nm l name = None <-> Forall (fun y => ~ same_name (nm y) name) l.
Proof.
  split.
  - induction l as [|y l IH]; cbn; auto.
    destruct (runes_eqb_spec (to_lower (nm y)) (to_lower name)) as [S|S]; try discriminate. auto.
  - induction 1 as [|y l N F IH]; cbn; auto.
    destruct (runes_eqb_spec (to_lower (nm y)) (to_lower name)); auto. contradiction.
Qed.

Theorem unit_by_name :
  forall us name,
    (forall u, units_by_name us name = Some u <->
       exists pre post, us = pre ++ u :: post /\ same_name (i_name (un_ident u)) name /\
         Forall (fun v => ~ same_name (i_name (un_ident v)) name) pre) /\
    (units_by_name us name = None <-> Forall (fun v => ~ same_name (i_name (un_ident v)) name) us).
Proof. intros us name. split; [intros u|]; [apply (find_name_some (fun u => i_name (un_ident u)))|apply (find_name_none (fun u => i_name (un_ident u)))]. Qed.

Theorem uses_by_name :
  forall us name,
    (forall u, uses_find us name = Some u <->
       exists pre post, us = pre ++ u :: post /\ same_name (i_name (u_ident u)) name /\
         Forall (fun v => ~ same_name (i_name (u_ident v)) name) pre) /\
    (uses_find us name = None <-> Forall (fun v => ~ same_name (i_name (u_ident v)) name) us).
Proof. intros us name. split; [intros u|]; [apply (find_name_some (fun u => i_name (u_ident u)))|apply (find_name_none (fun u => i_name (u_ident u)))]. Qed.

Theorem ident_by_name :
  forall l name,
    (forall i, ident_list_find l name = Some i <->
       exists pre post, l = pre ++ i :: post /\ same_name (i_name i) name /\
         Forall (fun v => ~ same_name (i_name v) name) pre) /\
    (ident_list_find l name = None <-> Forall (fun v => ~ same_name (i_name v) name) l).
Proof. intros l name. split; [intros i|]; [apply (find_name_some i_name)|apply (find_name_none i_name)]. Qed.

Theorem decl_by_name :
  forall l name,
    (forall d, decls_find l name = Some d <->
       exists pre post, l = pre ++ d :: post /\ same_name (i_name (d_ident d)) name /\
         Forall (fun v => ~ same_name (i_name (d_ident v)) name) pre) /\
    (decls_find l name = None <-> Forall (fun v => ~ same_name (i_name (d_ident v)) name) l).
Proof. intros l name. split; [intros d|]; [apply (find_name_some (fun d => i_name (d_ident d)))|apply (find_name_none (fun d => i_name (d_ident d)))]. Qed.

Theorem compact_drops_nils :
  forall (A : Type) (l : list (option A)), picks (fun x => x <> None) l (map Some (compact l)).
Proof.
  intros A l. unfold compact.
  assert (X : forall l (r : list A), exists s, compact_acc l r = r ++ s /\ picks (fun x => x <> None) l (map Some s)).
  { clear. induction l as [|[x|] l IH]; intros r; cbn [compact_acc].
    - exists []. rewrite app_nil_r. split; auto. constructor.
    - destruct (IH (r ++ [x])) as (s & -> & P). exists (x :: s). rewrite <- app_assoc. split; auto.
      cbn. constructor; auto. congruence.
    - destruct (IH r) as (s & -> & P). exists s. split; auto. apply picks_skip; auto. }
  destruct (X l []) as (s & -> & P). exact P.
Qed.

(** ** Contexts *)

Lemma ctx_put_map_ctx h c o m :
  nth_error (h_ctxs h) c = Some o ->
  nth_error (h_ctxs (ctx_put_map h c m)) c = Some (mkCtx (cx_kind o) (cx_path o) m).
Proof. intros E. unfold ctx_put_map. rewrite E. cbn. apply nth_set_nth_eq. eapply nth_lt; eauto. Qed.
Lemma ctx_put_map_other h c c' m : c <> c' -> nth_error (h_ctxs (ctx_put_map h c m)) c' = nth_error (h_ctxs h) c'.
Proof. intros N. unfold ctx_put_map. destruct (nth_error (h_ctxs h) c); auto. cbn. now apply nth_set_nth_neq. Qed.
Lemma ctx_put_map_maps h c m : h_maps (ctx_put_map h c m) = h_maps h.
Proof. unfold ctx_put_map. now destruct (nth_error (h_ctxs h) c). Qed.
Lemma ctx_put_map_len h c m : length (h_ctxs (ctx_put_map h c m)) = length (h_ctxs h).
Proof. unfold ctx_put_map. destruct (nth_error (h_ctxs h) c); auto. cbn. apply set_nth_length. Qed.
Lemma ctx_put_map_decls h c m : h_decls (ctx_put_map h c m) = h_decls h.
Proof. unfold ctx_put_map. now destruct (nth_error (h_ctxs h) c). Qed.

Lemma dget_same_maps h h' m name : h_maps h' = h_maps h -> dget h' m name = dget h m name.
Proof. intros E. apply dget_agree. intros a _. unfold agree. now rewrite E. Qed.

(** *** Built-in types *)

Definition builtin_ctx (o : ctxobj) : Prop :=
  match cx_kind o with KStack _ => True | _ => on_builtins (cx_map o) end.
Definition older_parent (c : nat) (o : ctxobj) : Prop :=
  match cx_kind o with KStack p => p < c | _ => True end.
Record api_inv (h : heap) (bs : list (nat * dmap)) : Prop := mkInv {
  ai_ctx : forall c o, nth_error (h_ctxs h) c = Some o -> builtin_ctx o /\ older_parent c o;
  ai_bs : forall c b, In (c, b) bs -> exists o, nth_error (h_ctxs h) c = Some o /\
            match cx_kind o with KStack _ => True | _ => on_builtins b end }.

Lemma ai_push h h' bs o :
  api_inv h bs -> h_ctxs h' = h_ctxs h ++ [o] -> builtin_ctx o -> older_parent (length (h_ctxs h)) o -> api_inv h' bs.
Proof.
  intros [I B] E P Q. constructor.
  - intros c x. rewrite E. intros H. destruct (Nat.lt_ge_cases c (length (h_ctxs h))) as [L|L].
    + rewrite nth_error_app1 in H by auto. auto.
    + rewrite nth_error_app2 in H by auto. destruct (c - length (h_ctxs h)) as [|k] eqn:K; cbn in H.
      * inversion H; subst. assert (c = length (h_ctxs h)) as -> by lia. auto.
      * destruct k; discriminate.
  - intros c b H. destruct (B c b H) as (x & N & M). exists x. split; auto. rewrite E, nth_error_app1; auto. eapply nth_lt; eauto.
Qed.
Lemma ai_same h h' bs : api_inv h bs -> h_ctxs h' = h_ctxs h -> api_inv h' bs.
Proof. intros [I B] E. constructor; rewrite E; auto. Qed.
Lemma ai_put h bs c o m :
  api_inv h bs -> nth_error (h_ctxs h) c = Some o ->
  match cx_kind o with KStack _ => True | _ => on_builtins m end -> api_inv (ctx_put_map h c m) bs.
Proof.
  intros [I B] E P. constructor.
  - intros c' x H. destruct (Nat.eq_dec c c') as [<-|N].
    + rewrite (ctx_put_map_ctx h c o m E) in H. inversion H; subst. destruct (I _ _ E) as [_ Q]. auto.
    + rewrite ctx_put_map_other in H by auto. auto.
  - intros c' b H. destruct (B c' b H) as (x & N & M). destruct (Nat.eq_dec c c') as [<-|D].
    + rewrite E in N. inversion N; subst. eexists. split; [apply ctx_put_map_ctx; eauto|]. exact M.
    + exists x. split; auto. now rewrite ctx_put_map_other.
Qed.

Lemma alloc_ctxs h ds : h_ctxs (fst (alloc_decls h ds)) = h_ctxs h.
Proof. reflexivity. Qed.
Lemma dset_ctxs h m ds h' : dset h m ds = SOk h' \/ (exists i, dset h m ds = SErr h' i) -> h_ctxs h' = h_ctxs h.
Proof. intros H. apply dset_target in H. destruct (target m); [apply (on_ctxs _ _ _ H)|now subst]. Qed.
Lemma doverwrite_ctxs h m n d h' : doverwrite h m n d = Some h' -> h_ctxs h' = h_ctxs h.
Proof. intros H. apply doverwrite_target in H. destruct (target m); [apply (on_ctxs _ _ _ H)|now subst]. Qed.
Lemma ctx_set_ctxs h c ds h' : ctx_set h c ds = SOk h' \/ (exists i, ctx_set h c ds = SErr h' i) -> h_ctxs h' = h_ctxs h.
Proof.
  unfold ctx_set, map_set. destruct (nth_error (h_ctxs h) c) as [o|]; [|intros [?|[? ?]]; discriminate].
  destruct (alloc_decls h ds) as [h1 l] eqn:A. intros H. apply dset_ctxs in H. rewrite H.
  change h1 with (fst (h1, l)). rewrite <- A. reflexivity.
Qed.
Lemma assign_loop_ctxs h units us : h_ctxs (assign_units_loop h units us) = h_ctxs h.
Proof.
  revert h. induction us as [|a us IH]; intros h; auto. cbn. rewrite IH.
  destruct (find_name _ _ _); auto. unfold uses_put_unit. now destruct (nth_error _ a).
Qed.

Lemma api_invariant h bs : api h bs -> api_inv h bs.
Proof.
  induction 1 as [|h bs p A IH|h bs c p A IH L|h bs c A IH L|h bs c h' c' o A IH E K C|h bs c h' b A IH C
    |h bs c b A IH I|h bs c ds h' A IH C|h bs c ds h' i A IH C|h bs c n d h' A IH C|h bs c us h' A IH C|h bs h' A IH M C].
  - constructor; [intros [|c] o; discriminate|intros ? ? []].
  - eapply ai_push; [exact IH|reflexivity|repeat constructor|exact I].
  - eapply ai_push; [exact IH|reflexivity|repeat constructor|exact I].
  - eapply ai_push; [exact IH|reflexivity|exact I|exact L].
  - unfold ctx_clone in C. rewrite E in C. destruct (ai_ctx _ _ IH _ _ E) as [B P].
    unfold builtin_ctx in B. unfold older_parent in P.
    assert (X : match cx_kind o with KStack _ => mkCtx (KProgram []) (Some []) (cx_map o) | _ => o end = o).
    { destruct (cx_kind o) eqn:Q; auto. exfalso. eapply K; eauto. }
    rewrite X in C. inversion C; subst. eapply ai_push; [exact IH|reflexivity|exact B|].
    unfold older_parent. destruct (cx_kind o) eqn:Q; auto. exfalso. eapply K; eauto.
  - unfold ctx_stack in C. destruct (nth_error (h_ctxs h) c) as [o|] eqn:E; try discriminate.
    cbn in C. inversion C; subst. destruct (ai_ctx _ _ IH _ _ E) as [B P]. unfold builtin_ctx in B.
    assert (IH1 : api_inv (with_maps (h_maps h ++ [[]]) h) bs) by (eapply ai_same; eauto).
    assert (J : api_inv (ctx_put_map (with_maps (h_maps h ++ [[]]) h) c (DChained (cx_map o) (length (h_maps h)))) bs).
    { eapply ai_put; eauto. destruct (cx_kind o); auto; now constructor. }
    constructor; [apply (ai_ctx _ _ J)|]. intros c' b' [[= <- <-]|Q]; [|now apply (ai_bs _ _ J)].
    eexists. split; [apply ctx_put_map_ctx; exact E|]. exact B.
  - destruct (ai_bs _ _ IH _ _ I) as (o & E & Q). eapply ai_put; eauto.
  - eapply ai_same; [exact IH|]. eapply ctx_set_ctxs. eauto.
  - eapply ai_same; [exact IH|]. eapply ctx_set_ctxs. eauto.
  - unfold ctx_overwrite in C. destruct (nth_error (h_ctxs h) c); try discriminate.
    eapply ai_same; [exact IH|]. eapply doverwrite_ctxs; eauto.
  - unfold import_unit_decls in C. unfold assign_units in C.
    destruct (parent_units h c) as [units|] eqn:PU; try discriminate. cbn [option_map] in C.
    set (h1 := assign_units_loop h units us) in *.
    destruct (new_map h1) as [h2 local] eqn:NM. inversion NM; subst h2 local.
    destruct (nth_error _ c) as [o|] eqn:E; try discriminate. inversion C; subst h'.
    assert (J : api_inv (with_maps (h_maps h1 ++ [[]]) h1) bs).
    { eapply ai_same; [exact IH|]. cbn. apply assign_loop_ctxs. }
    eapply ai_put; [exact J|exact E|].
    destruct (ai_ctx _ _ J _ _ E) as [B _]. unfold builtin_ctx in B.
    destruct (cx_kind o); auto; rewrite app_comm_cons; now constructor.
  - eapply ai_same; eauto.
Qed.

Definition ascii_up (r : rune) : rune := if between 97 122 r then (r - 32)%N else r.
Lemma to_upper_ascii s : Forall (fun r => (r < 128)%N) s -> to_upper s = map ascii_up s.
Proof. intros F. unfold to_upper. induction F as [|r s L F IH]; auto. cbn. rewrite IH, upper_ascii; auto. Qed.
Definition all_ascii (s : gostring) : bool := forallb (fun r => (r <? 128)%N) s.
Lemma all_ascii_spec s : all_ascii s = true -> Forall (fun r => (r < 128)%N) s.
Proof. unfold all_ascii. rewrite forallb_forall, Forall_forall. intros H r I. apply N.ltb_lt. auto. Qed.

Lemma find_index_ext {A} (f g : A -> bool) i l : (forall x, In x l -> f x = g x) -> find_index f i l = find_index g i l.
Proof.
  revert i. induction l as [|x l IH]; intros i H; auto. cbn. rewrite (H x) by now left.
  destruct (g x); auto. apply IH. intros; apply H; now right.
Qed.
Lemma embedded_ascii : forallb (fun e => all_ascii (snd e)) embedded = true.
Proof. reflexivity. Qed.
Lemma embedded_get_upper s n :
  to_upper s = map ascii_up n ->
  embedded_get s = option_map Emb (find_index (fun e => runes_equal (map ascii_up (snd e)) (map ascii_up n)) 0 embedded).
Proof.
  intros E. unfold embedded_get. f_equal. apply find_index_ext. intros x I. rewrite E.
  rewrite to_upper_ascii; auto. apply all_ascii_spec. pose proof embedded_ascii as Q.
  rewrite forallb_forall in Q. now apply Q.
Qed.

Theorem builtins_found_any_case :
  forall h k n name,
    builtin k n -> to_upper name = to_upper (rs n) ->
    exists d, dget h DEmbedded name = LFound d /\ deref h d = Some (embedded_decl k (rs n)).
Proof.
  intros h k n name B E. cbn [dget].
  assert (A : all_ascii (rs n) = true).
  { destruct k; cbn in B; repeat (destruct B as [<-|B]; [reflexivity|]); destruct B. }
  rewrite (to_upper_ascii (rs n)) in E by now apply all_ascii_spec.
  rewrite (embedded_get_upper name (rs n) E).
  destruct k; cbn in B; repeat (destruct B as [<-|B]; [eexists; split; reflexivity|]); destruct B.
Qed.

Theorem builtins_only :
  forall h name d,
    dget h DEmbedded name = LFound d ->
    exists k n, builtin k n /\ to_upper name = to_upper (rs n) /\ deref h d = Some (embedded_decl k (rs n)).
Proof.
  intros h name d. cbn [dget]. unfold embedded_get.
  assert (X : forall (l : list (ekind * gostring)) i j, find_index (fun e => runes_equal (to_upper (snd e)) (to_upper name)) i l = Some j ->
    exists k s, nth_error l (j - i) = Some (k, s) /\ to_upper s = to_upper name /\ i <= j).
  { induction l as [|[k s] l IH]; intros i j; cbn [find_index snd]; try discriminate.
    destruct (runes_eqb_spec (to_upper s) (to_upper name)) as [S|S].
    - intros [= <-]. rewrite Nat.sub_diag. exists k, s. auto.
    - intros F. destruct (IH _ _ F) as (k' & s' & N & Q & L). exists k', s'.
      replace (j - i) with (Datatypes.S (j - Datatypes.S i)) by lia. repeat split; auto. lia. }
  destruct (find_index _ 0 embedded) as [j|] eqn:F; try discriminate. cbn [option_map]. intros [= <-].
  destruct (X _ _ _ F) as (k & s & N & Q & _). rewrite Nat.sub_0_r in N. cbn [deref]. rewrite N. cbn [option_map fst snd].
  apply nth_error_In in N.
  assert (Y : exists n, builtin k n /\ s = rs n).
  { unfold embedded in N. clear -N.
    repeat (rewrite in_app_iff in N); rewrite !in_map_iff in N.
    repeat match goal with H : _ \/ _ |- _ => destruct H end;
    match goal with H : exists _, _ |- _ => destruct H as (n & [= <- <-] & H1) end;
    exists n; (split; [|reflexivity]); cbn in *; intuition. }
  destruct Y as (n & B & ->). exists k, n. auto.
Qed.

Lemma first_found_two l e : Forall (fun x => x = LNil \/ x = e) l -> first_found l = LNil \/ first_found l = e.
Proof. induction 1 as [|x l [->| ->] F IH]; cbn; auto. destruct e; auto. Qed.
Lemma first_found_two_last l e : Forall (fun x => x = LNil \/ x = e) l -> first_found (l ++ [e]) = e.
Proof. induction 1 as [|x l [->| ->] F IH]; cbn; auto; destruct e; auto. Qed.
Lemma solid_composite ms : solid (DComposite ms) <-> Forall solid ms.
Proof.
  induction ms as [|m ms IH]; [split; [constructor|exact (fun _ => I)]|].
  rewrite Forall_cons_iff, <- IH. reflexivity.
Qed.
Lemma unbound_get h m name :
  solid m -> (forall a, In a (addrs m) -> impl_get h a name = LNil) ->
  dget h m name = LNil \/ dget h m name = dget h DEmbedded name.
Proof.
  induction m as [a|p a IH|ms IH| |] using dmap_ind'; intros S N.
  - left. apply (N a). now left.
  - cbn [dget]. rewrite (N a) by now left. apply IH; auto. intros b I. apply N. now right.
  - rewrite dget_composite. apply first_found_two. apply Forall_map. rewrite solid_composite in S.
    rewrite Forall_forall in *. intros m I. apply IH; auto. intros a J. apply N. cbn. apply in_flat_map. eauto.
  - auto.
  - destruct S.
Qed.
Lemma on_builtins_get h m name :
  on_builtins m -> solid m -> (forall a, In a (addrs m) -> impl_get h a name = LNil) ->
  dget h m name = dget h DEmbedded name.
Proof.
  intros B. induction B as [|p a B IH|ms m B IH]; intros S N; auto.
  - cbn [dget]. rewrite (N a) by now left. apply IH; auto. intros b I. apply N. now right.
  - rewrite dget_composite, map_app. cbn [map]. rewrite solid_composite, Forall_app in S. destruct S as [S1 S2].
    apply Forall_inv in S2. cbn [addrs] in N. rewrite flat_map_app in N. cbn in N. rewrite app_nil_r in N.
    rewrite IH; auto; [|intros a I; apply N, in_or_app; auto].
    apply first_found_two_last, Forall_map. rewrite Forall_forall in *. intros m' I. apply unbound_get; auto.
    intros a J. apply N, in_or_app. left. apply in_flat_map. eauto.
Qed.
Lemma on_builtins_nonnil h m name :
  on_builtins m -> dget h DEmbedded name <> LNil -> dget h m name <> LNil.
Proof.
  intros B N. induction B as [|p a B IH|ms m B IH]; auto.
  - cbn [dget]. destruct (impl_get h a name); congruence.
  - rewrite dget_composite, first_found_none, Forall_map, Forall_app. intros [_ F]. apply Forall_inv in F. auto.
Qed.

Theorem builtins_always_visible :
  forall h bs c k n name,
    api h bs -> c < length (h_ctxs h) -> builtin k n -> to_upper name = to_upper (rs n) ->
    ctx_get h c name <> LNil /\
    ((forall m, looks_in h c m -> solid m /\ forall a, In a (addrs m) -> impl_get h a name = LNil) ->
     exists d, ctx_get h c name = LFound d /\ deref h d = Some (embedded_decl k (rs n))).
Proof.
  intros h bs c k n name A L B E. apply api_invariant in A.
  destruct (builtins_found_any_case h k n name B E) as (d & D & R).
  unfold ctx_get.
  assert (X : forall f c, c < f -> c < length (h_ctxs h) -> ctx_get_fuel f h c name <> LNil /\
    ((forall m, looks_in h c m -> solid m /\ forall a, In a (addrs m) -> impl_get h a name = LNil) ->
     ctx_get_fuel f h c name = LFound d)).
  { clear c L. induction f as [|f IH]; intros c F L; [lia|]. cbn [ctx_get_fuel].
    destruct (nth_error (h_ctxs h) c) as [o|] eqn:O; [|apply nth_error_None in O; lia].
    destruct (ai_ctx _ _ A _ _ O) as [P Q]. unfold builtin_ctx in P. unfold older_parent in Q.
    destruct (cx_kind o) as [us|p|p] eqn:K.
    - split; [apply on_builtins_nonnil; auto; congruence|]. intros H.
      destruct (H (cx_map o)) as [S N]; [now constructor|]. rewrite on_builtins_get; auto.
    - split; [apply on_builtins_nonnil; auto; congruence|]. intros H.
      destruct (H (cx_map o)) as [S N]; [now constructor|]. rewrite on_builtins_get; auto.
    - destruct (IH p) as [I1 I2]; [lia|lia|]. split.
      + destruct (dget h (cx_map o) name); congruence.
      + intros H. assert (I3 : ctx_get_fuel f h p name = LFound d).
        { apply I2. intros m J. apply H. destruct o as [ko po mo]; cbn in *; subst. eapply li_parent; eauto. }
        destruct (H (cx_map o)) as [S N]; [now constructor|].
        destruct (unbound_get h (cx_map o) name S N) as [-> | ->]; [auto|now rewrite D]. }
  destruct (X (S c) c) as [X1 X2]; auto. split; [exact X1|]. intros H. exists d. auto.
Qed.

Theorem builtins_read_only :
  forall h cs h' rs,
    do_calls h DEmbedded cs = Some (h', rs) ->
    h' = h /\ Forall2 (fun c r => match c with CSet _ => r = ARefused | COverwrite _ _ => r = AOk end) cs rs.
Proof.
  intros h cs. induction cs as [|[ds|n d] cs IH]; intros h' rs C; cbn [do_calls] in C.
  - inversion C; subst. split; auto.
  - cbn in C. destruct (do_calls h DEmbedded cs) as [[h2 r]|] eqn:E; try discriminate. inversion C; subst.
    destruct (IH h' r eq_refl) as [-> F]. split; auto.
  - cbn in C. destruct (do_calls h DEmbedded cs) as [[h2 r]|] eqn:E; try discriminate. inversion C; subst.
    destruct (IH h' r eq_refl) as [-> F]. split; auto.
Qed.

(** *** Balanced scopes *)

(** [h'] has the contexts and declarations of [h] and, up to [n], its map objects. *)
Record extends (n : nat) (h h' : heap) : Prop := mkExt {
  ex_maps : forall a, a < n -> nth_error (h_maps h') a = nth_error (h_maps h) a;
  ex_decls : h_decls h' = h_decls h; ex_ctxs : h_ctxs h' = h_ctxs h }.

Lemma extends_deref n h h' d : extends n h h' -> deref h' d = deref h d.
Proof. intros [_ D _]. destruct d; cbn; auto. now rewrite D. Qed.
Lemma extends_put n h h' a m :
  extends n h h' -> a < n -> nth_error (h_maps h) a <> None ->
  extends n (with_maps (set_nth a m (h_maps h)) h) (with_maps (set_nth a m (h_maps h')) h').
Proof.
  intros X L N. pose proof (ex_maps _ _ _ X a L) as Y. destruct X as [M D C]. constructor; cbn; auto. intros b B. destruct (Nat.eq_dec a b) as [<-|Z].
  - rewrite !nth_set_nth_eq; auto; apply nth_error_Some; congruence.
  - rewrite !nth_set_nth_neq by auto. auto.
Qed.
Lemma extends_impl_set n h h' a ds :
  extends n h h' -> a < n ->
  match impl_set h' a ds with
  | SOk k' => exists k, impl_set h a ds = SOk k /\ extends n k k'
  | SErr k' i => exists k, impl_set h a ds = SErr k i /\ extends n k k'
  | SPanic => impl_set h a ds = SPanic
  end.
Proof.
  intros X L. revert h h' X. induction ds as [|[i d] ds IH]; intros h h' X; cbn [impl_set]; [eauto|].
  rewrite (ex_maps _ _ _ X a L). destruct (nth_error (h_maps h) a) as [m|] eqn:E; auto.
  destruct (mget _ m) as [[old|]|]; auto.
  - rewrite (extends_deref _ _ _ old X). destruct (i_loc i); auto. destruct (option_map _ _) as [[?|]|]; eauto.
  - apply IH. apply extends_put; auto. congruence.
Qed.
Lemma extends_do_call n h h' m c k' r :
  extends n h h' -> (forall a, target m = Some a -> a < n) -> do_call h' m c = Some (k', r) ->
  exists k, do_call h m c = Some (k, r) /\ extends n k k'.
Proof.
  intros X L. destruct (target m) as [a|] eqn:T.
  - specialize (L a eq_refl). destruct c as [ds|nm d]; cbn [do_call].
    + rewrite !(dset_impl _ m a ds T). pose proof (extends_impl_set n h h' a ds X L) as Y.
      destruct (impl_set h' a ds); intros [= <- <-]; destruct Y as (k & -> & Y); eauto.
    + rewrite !(doverwrite_impl _ m a _ _ T). unfold impl_overwrite. rewrite (ex_maps _ _ _ X a L).
      destruct (nth_error (h_maps h) a) as [mo|] eqn:E; [|discriminate]. intros [= <- <-].
      eexists. split; [reflexivity|]. apply extends_put; auto. congruence.
  - clear L. intros C. pose proof (do_call_target _ _ _ _ _ C) as Y. rewrite T in Y. subst k'.
    exists h. split; auto. clear X. induction m as [b|p b IH|ms IH| |] using dmap_ind'; cbn in T; try discriminate.
    + destruct ms as [|m ms]; [destruct c; discriminate|]. apply Forall_inv in IH.
      assert (Z : forall h, do_call h (DComposite (m :: ms)) c = do_call h m c) by (intros; destruct c; reflexivity).
      rewrite Z in *. auto.
    + destruct c; cbn in *; inversion C; subst; auto.
    + destruct c; discriminate.
Qed.

Definition all_allocated (h : heap) : Prop := forall c o, nth_error (h_ctxs h) c = Some o -> allocated h (cx_map o).

Lemma ctx_get_extends h h' c name :
  all_allocated h -> extends (length (h_maps h)) h h' -> ctx_get h' c name = ctx_get h c name.
Proof.
  intros A X. unfold ctx_get. generalize (S c). intros f. revert c. induction f as [|f IH]; intros c; auto.
  cbn [ctx_get_fuel]. rewrite (ex_ctxs _ _ _ X). destruct (nth_error (h_ctxs h) c) as [o|] eqn:E; auto.
  assert (D : dget h' (cx_map o) name = dget h (cx_map o) name).
  { apply dget_agree. intros a I. apply (ex_maps _ _ _ X). specialize (A _ _ E). unfold allocated in A.
    rewrite Forall_forall in A. auto. }
  rewrite D. destruct (cx_kind o); auto. now rewrite IH.
Qed.

Lemma do_call_len h m c h' r : do_call h m c = Some (h', r) ->
  length (h_maps h') = length (h_maps h) /\ h_ctxs h' = h_ctxs h /\ h_decls h' = h_decls h /\
  (forall b, target m <> Some b -> nth_error (h_maps h') b = nth_error (h_maps h) b).
Proof.
  intros C. pose proof (do_call_target _ _ _ _ _ C) as O. destruct (target m) as [a|].
  - split; [apply (on_len _ _ _ O)|]. split; [apply (on_ctxs _ _ _ O)|]. split; [apply (on_decls _ _ _ O)|].
    intros b N. apply (on_maps _ _ _ O). congruence.
  - subst. auto.
Qed.

Lemma set_nth_twice {A} n (v w : A) l : set_nth n v (set_nth n w l) = set_nth n v l.
Proof. revert l. induction n; intros [|x l]; cbn; auto. now rewrite IHn. Qed.

Lemma do_calls_len h m cs h' r : do_calls h m cs = Some (h', r) ->
  length (h_maps h') = length (h_maps h) /\ h_ctxs h' = h_ctxs h /\ h_decls h' = h_decls h /\
  (forall b, target m <> Some b -> nth_error (h_maps h') b = nth_error (h_maps h) b).
Proof.
  intros C. pose proof (do_calls_target _ _ _ _ _ C) as O. destruct (target m) as [a|].
  - split; [apply (on_len _ _ _ O)|]. split; [apply (on_ctxs _ _ _ O)|]. split; [apply (on_decls _ _ _ O)|].
    intros b N. apply (on_maps _ _ _ O). congruence.
  - subst. auto.
Qed.

Lemma ctx_eta o : mkCtx (cx_kind o) (cx_path o) (cx_map o) = o.
Proof. now destruct o. Qed.

(** Running a script writes only what its own calls write, below [n]. *)
Lemma run_script_sim s : forall n h h0 c o h',
  extends n h0 h -> n <= length (h_maps h) ->
  nth_error (h_ctxs h) c = Some o -> (forall a, target (cx_map o) = Some a -> a < n) ->
  run_script h c s = Some h' ->
  length (h_maps h) <= length (h_maps h') /\
  exists h1 rs, do_calls h0 (cx_map o) (own_calls s) = Some (h1, rs) /\ extends n h1 h'.
Proof.
  induction s as [|k s IH|i IHi s IHs]; intros n h h0 c o h' X L E T R.
  - cbn in R. inversion R; subst. split; auto. exists h0, []. auto.
  - cbn [run_script own_calls do_calls] in *. rewrite E in R.
    destruct (do_call h (cx_map o) k) as [[h1 r]|] eqn:C; try discriminate.
    destruct (extends_do_call n h0 h (cx_map o) k h1 r X T C) as (k0 & -> & X1).
    destruct (do_call_len _ _ _ _ _ C) as (L1 & C1 & _).
    destruct (IH n h1 k0 c o h' X1) as (L2 & h2 & rs & -> & X2); auto; [lia|congruence|].
    split; [lia|]. eexists _, _. split; [reflexivity|]. exact X2.
  - cbn [run_script own_calls] in *. unfold ctx_stack in R. rewrite E in R. cbn [new_chained new_map] in R.
    set (h1 := ctx_put_map (with_maps (h_maps h ++ [[]]) h) c (DChained (cx_map o) (length (h_maps h)))) in *.
    destruct (run_script h1 c i) as [h2|] eqn:R1; try discriminate.
    assert (E1 : nth_error (h_ctxs h1) c = Some (mkCtx (cx_kind o) (cx_path o) (DChained (cx_map o) (length (h_maps h))))).
    { apply ctx_put_map_ctx. exact E. }
    assert (M1 : h_maps h1 = h_maps h ++ [[]]) by (unfold h1; now rewrite ctx_put_map_maps).
    assert (LM : length (h_maps h1) = S (length (h_maps h))) by (rewrite M1, app_length; cbn; lia).
    destruct (IHi (S (length (h_maps h))) h1 h1 c _ h2 (mkExt (S (length (h_maps h))) h1 h1 (fun _ _ => eq_refl) eq_refl eq_refl)
      ltac:(lia) E1 ltac:(cbn; intros a [= <-]; lia) R1) as (L2 & h3 & rs & D & X3).
    cbn [cx_map] in D. destruct (do_calls_len _ _ _ _ _ D) as (L3 & C3 & D3 & A3). cbn [target] in A3.
    assert (E2 : nth_error (h_ctxs h2) c = Some (mkCtx (cx_kind o) (cx_path o) (DChained (cx_map o) (length (h_maps h))))).
    { rewrite (ex_ctxs _ _ _ X3), C3. exact E1. }
    assert (X4 : extends n h0 (ctx_restore h2 c (cx_map o))).
    { constructor.
      - intros a La. unfold ctx_restore. rewrite ctx_put_map_maps, (ex_maps _ _ _ X3) by lia.
        rewrite A3 by (intros [= Q]; lia). rewrite M1, nth_error_app1 by lia. apply (ex_maps _ _ _ X). lia.
      - unfold ctx_restore. rewrite ctx_put_map_decls, (ex_decls _ _ _ X3), D3. unfold h1.
        rewrite ctx_put_map_decls. apply (ex_decls _ _ _ X).
      - unfold ctx_restore, ctx_put_map. rewrite E2. cbn. rewrite (ex_ctxs _ _ _ X3), C3.
        unfold h1, ctx_put_map. cbn [h_ctxs with_maps]. rewrite E. cbn. rewrite set_nth_twice, ctx_eta, set_nth_same; auto.
        apply (ex_ctxs _ _ _ X). }
    assert (E4 : nth_error (h_ctxs (ctx_restore h2 c (cx_map o))) c = Some o).
    { unfold ctx_restore. rewrite (ctx_put_map_ctx h2 c _ _ E2). cbn. now rewrite ctx_eta. }
    assert (L4 : length (h_maps (ctx_restore h2 c (cx_map o))) = length (h_maps h2)).
    { unfold ctx_restore. now rewrite ctx_put_map_maps. }
    destruct (IHs n _ h0 c o h' X4 ltac:(lia) E4 T R) as (L5 & h5 & rs5 & D5 & X5).
    split; [lia|]. eauto.
Qed.

Theorem scopes_are_balanced :
  forall h c o s h',
    (forall c' o', nth_error (h_ctxs h) c' = Some o' -> allocated h (cx_map o')) ->
    nth_error (h_ctxs h) c = Some o -> run_script h c s = Some h' ->
    nth_error (h_ctxs h') c = Some o /\
    exists h1 rs, do_calls h (cx_map o) (own_calls s) = Some (h1, rs) /\
      forall c' name, ctx_get h' c' name = ctx_get h1 c' name.
Proof.
  intros h c o s h' A E R.
  destruct (run_script_sim s (length (h_maps h)) h h c o h') as (L & h1 & rs & D & X); auto.
  - constructor; auto.
  - intros a T. apply target_in_addrs in T. specialize (A _ _ E). unfold allocated in A.
    rewrite Forall_forall in A. auto.
  - destruct (do_calls_len _ _ _ _ _ D) as (L1 & C1 & D1 & A1). split.
    + rewrite (ex_ctxs _ _ _ X), C1. exact E.
    + exists h1, rs. split; auto. intros c' name. apply ctx_get_extends.
      * intros c2 o2 E2. rewrite C1 in E2. specialize (A _ _ E2). unfold allocated in *. now rewrite L1.
      * now rewrite L1.
Qed.

(** *** Names across units *)

Lemma chosen_app_units h1 h2 units us l :
  (forall u, unit_name h1 u = unit_name h2 u) -> (forall a, uses_name h1 a = uses_name h2 a) ->
  chosen h1 units us l -> chosen h2 units us l.
Proof.
  intros Q R. induction 1 as [|a us u l (pre & post & E & S & F) C IH|a us l F C IH].
  - constructor.
  - constructor; auto. exists pre, post. rewrite <- Q, <- R. repeat split; auto.
    eapply Forall_impl; [|exact F]. cbn. intros v. now rewrite Q.
  - apply ch_skip; auto. eapply Forall_impl; [|exact F]. cbn. intros v. now rewrite Q, R.
Qed.

Lemma uses_put_name h a u b : uses_name (uses_put_unit h a u) b = uses_name h b.
Proof.
  unfold uses_name, uses_put_unit. destruct (nth_error (h_uses h) a) as [o|] eqn:E; auto. cbn.
  destruct (Nat.eq_dec a b) as [<-|N].
  - rewrite nth_set_nth_eq, E by (eapply nth_lt; eauto). reflexivity.
  - now rewrite nth_set_nth_neq.
Qed.
Lemma uses_put_units h a u : h_units (uses_put_unit h a u) = h_units h.
Proof. unfold uses_put_unit. now destruct (nth_error (h_uses h) a). Qed.
Lemma unit_name_units h h' u : h_units h' = h_units h -> unit_name h' u = unit_name h u.
Proof. unfold unit_name. now intros ->. Qed.

Definition item_unit (h : heap) (a : nat) : option nat :=
  match nth_error (h_uses h) a with Some o => u_unit o | None => None end.
Definition assigned (h : heap) (units : list nat) (a : nat) : option nat :=
  match find_name (unit_name h) units (uses_name h a) with Some u => Some u | None => item_unit h a end.

Lemma find_name_ext {A} (f g : A -> gostring) l n : (forall x, f x = g x) -> find_name f l n = find_name g l n.
Proof. intros E. induction l as [|x l IH]; auto. cbn. rewrite E. destruct (runes_equal _ _); auto. Qed.

Lemma assign_loop_facts h units us :
  (forall a, In a us -> nth_error (h_uses h) a <> None) ->
  let h' := assign_units_loop h units us in
  h_maps h' = h_maps h /\ h_units h' = h_units h /\ h_ctxs h' = h_ctxs h /\ h_decls h' = h_decls h /\
  (forall a, uses_name h' a = uses_name h a) /\
  (forall a, In a us -> item_unit h' a = assigned h units a) /\
  (forall a, item_unit h' a = item_unit h a \/ item_unit h' a = assigned h units a) .
Proof.
  revert h. induction us as [|b us IH]; intros h V h'.
  - cbn in h'. subst h'. repeat split; auto. intros ? [].
  - cbn in h'.
    set (h1 := match find_name (unit_name h) units (uses_name h b) with Some u => uses_put_unit h b u | None => h end) in *.
    assert (F : h_maps h1 = h_maps h /\ h_units h1 = h_units h /\ h_ctxs h1 = h_ctxs h /\ h_decls h1 = h_decls h /\
      (forall a, uses_name h1 a = uses_name h a) /\
      (forall a, item_unit h1 a = if Nat.eq_dec a b then assigned h units b else item_unit h a) /\
      (forall a, nth_error (h_uses h) a <> None -> nth_error (h_uses h1) a <> None)).
    { subst h1. unfold assigned. destruct (find_name (unit_name h) units (uses_name h b)) as [u|].
      - unfold uses_put_unit. destruct (nth_error (h_uses h) b) as [o|] eqn:E; [|exfalso; apply (V b); auto; now left].
        repeat split; auto.
        + intros a. pose proof (uses_put_name h b u a) as Q. unfold uses_put_unit in Q. now rewrite E in Q.
        + intros a. unfold item_unit. cbn. destruct (Nat.eq_dec a b) as [->|N].
          * rewrite nth_set_nth_eq by (eapply nth_lt; eauto). reflexivity.
          * now rewrite nth_set_nth_neq by auto.
        + intros a Q. cbn. destruct (Nat.eq_dec b a) as [<-|N].
          * rewrite nth_set_nth_eq by (eapply nth_lt; eauto). congruence.
          * now rewrite nth_set_nth_neq by auto.
      - repeat split; auto. intros a. destruct (Nat.eq_dec a b) as [->|N]; auto. }
    destruct F as (F1 & F2 & F3 & F4 & F5 & F6 & F7).
    assert (AS : forall a, assigned h1 units a = assigned h units a).
    { intros a. unfold assigned. rewrite F5. rewrite (find_name_ext (unit_name h1) (unit_name h)) by (intros; now apply unit_name_units).
      destruct (find_name (unit_name h) units (uses_name h a)) eqn:Q; auto. rewrite F6.
      destruct (Nat.eq_dec a b) as [->|N]; auto. unfold assigned. now rewrite Q. }
    destruct (IH h1) as (I1 & I2 & I3 & I4 & I5 & I6 & I7).
    { intros a I. apply F7, V. now right. }
    split; [etransitivity; eauto|]. split; [etransitivity; eauto|]. split; [etransitivity; eauto|].
    split; [etransitivity; eauto|]. split; [|split].
    + intros a. rewrite <- F5. apply I5.
    + intros a [<-|I]; [|rewrite <- AS; now apply I6].
      destruct (I7 b) as [Q|Q]; [|now rewrite <- AS].
      transitivity (item_unit h1 b); auto. rewrite F6. destruct (Nat.eq_dec b b); congruence.
    + intros a. destruct (I7 a) as [Q|Q]; [|right; now rewrite <- AS].
      rewrite F6 in Q. destruct (Nat.eq_dec a b) as [->|N]; auto.
Qed.

Lemma chosen_units h units us l :
  (forall a, In a us -> item_unit h a = None) ->
  chosen h units us l -> compact (map (assigned h units) us) = l.
Proof.
  assert (C : forall A (l : list (option A)) r, compact_acc l r = r ++ compact_acc l []).
  { clear. intros A. induction l as [|[x|] l IH]; intros r; cbn; [now rewrite app_nil_r| |apply IH].
    rewrite IH, (IH [x]), app_assoc. reflexivity. }
  intros V. induction 1 as [|a us u l R Ch IH|a us l F Ch IH]; auto.
  - unfold compact in *. cbn. unfold assigned at 1.
    apply (proj2 (find_name_some (unit_name h) units (uses_name h a) u)) in R. rewrite R.
    rewrite C. cbn. f_equal. apply IH. intros; apply V; now right.
  - unfold compact in *. cbn. unfold assigned at 1.
    apply (proj2 (find_name_none (unit_name h) units (uses_name h a))) in F. rewrite F, (V a) by now left.
    apply IH. intros; apply V; now right.
Qed.

Lemma maps_reverse_rev l : maps_reverse l = rev l.
Proof. apply reverse_from_rev. Qed.

Lemma first_found_app a b : first_found (a ++ b) = match first_found a with LNil => first_found b | r => r end.
Proof. induction a as [|[] a IH]; cbn; auto. Qed.

Lemma do_calls_get h m a cs h' rs name rest :
  allocated h m -> nth_error (h_maps h) a = Some [] -> target m = Some a ->
  (forall h, dget h m name = first_found [impl_get h a name; rest h]) ->
  do_calls h m cs = Some (h', rs) -> rest h' = rest h ->
  dget h' m name = first_found [scope_says cs name; rest h].
Proof.
  intros A E T S D R. rewrite S, R.
  destruct (do_calls_log h m a [] [] cs h' rs T E holds_nil D) as (m' & E' & H & _).
  now rewrite (impl_get_told _ _ _ _ name E' H).
Qed.

(** A context whose map writes to a fresh object and otherwise answers [rest]. *)
Lemma nest_get inner : forall h c o a own h' name rest,
  nth_error (h_ctxs h) c = Some o -> (forall p, cx_kind o <> KStack p) ->
  target (cx_map o) = Some a -> nth_error (h_maps h) a = Some [] -> allocated h (cx_map o) ->
  (forall k, (forall b, b <> a -> b < length (h_maps h) -> nth_error (h_maps k) b = nth_error (h_maps h) b) ->
     dget k (cx_map o) name = first_found [impl_get k a name; rest]) ->
  nest h c own inner = Some h' ->
  ctx_get h' c name = first_found (map (fun cs => scope_says cs name) (rev (own :: inner)) ++ [rest]).
Proof.
  induction inner as [|own' inner IH]; intros h c o a own h' name rest E K T M A Hs N; cbn [nest] in N; rewrite E in N;
    destruct (do_calls h (cx_map o) own) as [[h1 rs]|] eqn:D; try discriminate;
    destruct (do_calls_len _ _ _ _ _ D) as (L1 & C1 & D1 & A1);
    destruct (do_calls_log h (cx_map o) a [] [] own h1 rs T M holds_nil D) as (m' & E' & H & _).
  - inversion N; subst h'. unfold ctx_get. cbn [ctx_get_fuel]. rewrite C1, E.
    assert (X : dget h1 (cx_map o) name = first_found (map (fun cs => scope_says cs name) (rev [own]) ++ [rest])).
    { rewrite Hs by (intros b B _; apply A1; congruence). cbn [rev map app].
      now rewrite (impl_get_told _ _ _ _ name E' H). }
    destruct (cx_kind o) eqn:Q; auto. exfalso. eapply K; eauto.
  - unfold ctx_stack in N. rewrite C1, E in N. cbn [new_chained new_map] in N.
    set (n := length (h_maps h1)) in *.
    set (h2 := ctx_put_map (with_maps (h_maps h1 ++ [[]]) h1) c (DChained (cx_map o) n)) in *.
    assert (M2 : h_maps h2 = h_maps h1 ++ [[]]) by (unfold h2; now rewrite ctx_put_map_maps).
    assert (E2 : nth_error (h_ctxs h2) c = Some (mkCtx (cx_kind o) (cx_path o) (DChained (cx_map o) n))).
    { apply ctx_put_map_ctx. cbn. now rewrite C1. }
    rewrite (IH h2 c _ n own' h' name (first_found [scope_says own name; rest]) E2); auto.
    + cbn [rev]. rewrite !map_app, <- !app_assoc. cbn [map app].
      rewrite !first_found_app. cbn [first_found].
      destruct (first_found (map _ (rev inner))); auto. destruct (scope_says own' name); auto.
      destruct (scope_says own name); auto. destruct rest; auto.
    + rewrite M2. apply nth_app_new.
    + unfold allocated in *. cbn [cx_map addrs]. rewrite M2, app_length, L1 in *. cbn. constructor; [lia|].
      eapply Forall_impl; [|exact A]. cbn. intros; lia.
    + intros k Hk. cbn [cx_map dget].
      assert (Lk : length (h_maps h2) = S n) by (rewrite M2, app_length; cbn; lia).
      assert (G : forall b, b < n -> nth_error (h_maps k) b = nth_error (h_maps h1) b).
      { intros b B. rewrite Hk by lia. rewrite M2, nth_error_app1; auto. }
      rewrite Hs.
      * assert (An : a < n) by (rewrite L1; eapply nth_lt; eauto).
        assert (impl_get k a name = scope_says own name) as ->.
        { unfold impl_get. rewrite (G a An). apply (impl_get_told h1 a m' _ name E' H). }
        cbn. destruct (impl_get k n name); auto. destruct (scope_says own name); auto. now destruct rest.
      * intros b B1 B2. rewrite G by (lia). apply A1. congruence.
Qed.

Theorem names_across_units :
  forall h c o units us used h1 own inner h2 name,
    nth_error (h_ctxs h) c = Some o -> parent_units h c = Some units ->
    (forall a, In a us -> exists item, nth_error (h_uses h) a = Some item /\ u_unit item = None) ->
    allocated h (cx_map o) -> (forall u, In u units -> allocated h (unit_map h u)) ->
    chosen h units us used ->
    import_unit_decls h c us = Some h1 -> nest h1 c own inner = Some h2 ->
    ctx_get h2 c name =
      first_found (map (fun cs => scope_says cs name) (rev (own :: inner)) ++
                   map (fun u => dget h (unit_map h u) name) (rev used) ++
                   [dget h (cx_map o) name]).
Proof.
  intros h c o units us used h1 own inner h2 name E PU V A AU Ch I N.
  unfold import_unit_decls, assign_units in I. rewrite PU in I. cbn [option_map] in I.
  set (k := assign_units_loop h units us) in *. cbn [new_map] in I.
  destruct (assign_loop_facts h units us) as (F1 & F2 & F3 & F4 & F5 & F6 & _).
  { intros a J. destruct (V a J) as (it & -> & _). congruence. }
  fold k in F1, F2, F3, F4, F5, F6.
  cbn [h_ctxs with_maps] in I. rewrite F3, E in I. inversion I as [I']. clear I.
  assert (Us : compact (uses_units k us) = used).
  { rewrite <- (chosen_units h units us used); auto.
    - f_equal. apply map_ext_in. intros a J. apply F6, J.
    - intros a J. unfold item_unit. destruct (V a J) as (it & -> & ->). reflexivity. }
  rewrite Us in I'. rewrite maps_reverse_rev in I'.
  set (n := length (h_maps k)) in *.
  assert (Ln : n = length (h_maps h)) by (unfold n; now rewrite F1).
  assert (Um : units_maps (with_maps (h_maps k ++ [[]]) k) used = map (unit_map h) used).
  { apply map_ext. intros u. unfold unit_map. cbn. now rewrite F2. }
  rewrite Um in I'.
  set (m := DComposite (DImpl n :: rev (map (unit_map h) used) ++ [cx_map o])) in *.
  assert (InU : forall u, In u used -> In u units).
  { clear -Ch. induction Ch as [|a us u l (pre & post & -> & _) C IH|a us l F C IH]; intros v; [intros []| |auto].
    intros [<-|J]; auto. apply in_or_app. right. now left. }
  assert (AM : forall m', In m' (rev (map (unit_map h) used) ++ [cx_map o]) -> allocated h m').
  { intros m' J. apply in_app_or in J. destruct J as [J|[<-|[]]]; auto.
    apply in_rev, in_map_iff in J. destruct J as (u & <- & J). auto. }
  assert (E1 : nth_error (h_ctxs h1) c = Some (mkCtx (cx_kind o) (cx_path o) m)).
  { rewrite <- I'. apply ctx_put_map_ctx. cbn. now rewrite F3. }
  assert (M1 : h_maps h1 = h_maps h ++ [[]]) by (rewrite <- I', ctx_put_map_maps; cbn; now rewrite F1).
  rewrite (nest_get inner h1 c _ n own h2 name
    (first_found (map (fun u => dget h (unit_map h u) name) (rev used) ++ [dget h (cx_map o) name])) E1); auto.
  - rewrite !first_found_app. cbn [first_found].
    destruct (first_found (map _ (rev (own :: inner)))); auto.
    destruct (first_found (map _ (rev used))); auto. now destruct (dget h (cx_map o) name).
  - cbn. intros p Q. unfold parent_units in PU. rewrite E in PU. destruct o as [ko po mo]. cbn in Q. subst ko. discriminate.
  - rewrite M1, Ln. apply nth_app_new.
  - unfold allocated. cbn [cx_map]. unfold m. cbn [addrs flat_map app]. rewrite M1, app_length. cbn. constructor; [lia|].
    apply Forall_forall. intros a J. apply in_flat_map in J. destruct J as (m' & J1 & J2).
    specialize (AM m' J1). unfold allocated in AM. rewrite Forall_forall in AM. apply AM in J2. lia.
  - intros q Hq. cbn [cx_map]. unfold m. rewrite dget_composite. cbn [map].
    assert (G : forall m', In m' (rev (map (unit_map h) used) ++ [cx_map o]) -> dget q m' name = dget h m' name).
    { intros m' J. apply dget_agree. intros a Ia. unfold agree. specialize (AM m' J). unfold allocated in AM.
      rewrite Forall_forall in AM. apply AM in Ia. rewrite Hq; [|lia|rewrite M1, app_length; lia].
      rewrite M1. now apply nth_error_app1. }
    rewrite (map_ext_in _ _ _ G). rewrite map_app, map_rev, map_map, <- map_rev. cbn [map dget].
    cbn [first_found]. destruct (impl_get q n name); auto.
    now destruct (first_found _).
Qed.

End WithUnicode.
