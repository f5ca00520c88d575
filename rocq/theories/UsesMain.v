(** Uses clauses. *)
From Coq Require Import String List NArith Bool Arith Lia.
From Verif Require Import ListUtil Runes UnicodeFacts Token Tokenizer LexSpec LexShape LexFacts LexMain Ext
  Ast Heap MapSpec MapFacts MapMain Prog ParseSpec Parser RunFacts ExprSpec WpFacts ExprFacts ExprSound Units UnitSpec.
Import ListNotations.
Local Open Scope list_scope.

Section WithUnicode.
Context {U : Unicode} {UOK : UnicodeOk U}.

Notation words := (list (ttype * gostring)).

Lemma some_eq {A} (a b : A) : Some a = Some b -> a = b.
Proof. congruence. Qed.

(** ** One more declaration *)
Lemma declare_new h c o dc : nth_error (h_ctxs h) c = Some o -> (forall p, cx_kind o <> KStack p) ->
  undeclared h c (i_name (d_ident dc)) ->
  exists h' d, ctx_set h c [dc] = SOk h' /\ deref h' d = Some dc /\ nth_error (h_ctxs h') c = Some o /\
    h_uses h' = h_uses h /\
    (forall e x, deref h e = Some x -> deref h' e = Some x) /\
    (forall n, same_name n (i_name (d_ident dc)) -> ctx_get h' c n = LFound d) /\
    (forall n, ~ same_name n (i_name (d_ident dc)) -> ctx_get h' c n = ctx_get h c n) /\
    (forall n, ~ same_name n (i_name (d_ident dc)) -> undeclared h c n -> undeclared h' c n) /\
    (i_loc (d_ident dc) <> None -> forall n, same_name n (i_name (d_ident dc)) -> taken h' c n) /\
    (forall n, taken h c n -> taken h' c n).
Proof.
  intros Ec K (o' & a & m & Ec' & T & M & G). rewrite Ec in Ec'. injection Ec' as <-. unfold same_name.
  set (i := d_ident dc) in *.
  set (h1 := with_decls (h_decls h ++ [dc]) h). set (d := Ptr (length (h_decls h))).
  set (h' := with_maps (set_nth a (mput (to_lower (i_name i)) (Some d) m) (h_maps h)) h1).
  exists h', d.
  assert (R : ctx_set h c [dc] = SOk h').
  { unfold ctx_set. rewrite Ec. unfold map_set, alloc_decls. cbn [map length seq combine].
    rewrite (dset_impl _ _ a _ T). cbn [impl_set]. change (h_maps (with_decls (h_decls h ++ [dc]) h)) with (h_maps h).
    rewrite M. unfold regularize. fold i. rewrite G. reflexivity. }
  assert (Len : a < length (h_maps h)) by (eapply nth_lt; eauto).
  assert (Da : nth_error (h_maps h') a = Some (mput (to_lower (i_name i)) (Some d) m)) by (apply nth_set_nth_eq; exact Len).
  assert (Db : forall b, b <> a -> nth_error (h_maps h') b = nth_error (h_maps h) b).
  { intros b N. apply nth_set_nth_neq. congruence. }
  assert (Ec1 : nth_error (h_ctxs h') c = Some o) by exact Ec.
  split; [exact R|]. split. { cbn. rewrite nth_error_app2 by lia. now rewrite Nat.sub_diag. }
  split; [exact Ec1|]. split; [reflexivity|].
  assert (Kp : forall e x, deref h e = Some x -> deref h' e = Some x).
  { intros [e|e] x; cbn; [auto|]. intros E. rewrite nth_error_app1; [exact E|]. apply nth_error_Some. congruence. }
  split; [exact Kp|]. split; [|split; [|split; [|split]]].
  - intros n N. rewrite (ctx_get_plain _ _ o _ Ec1 K). eapply dget_target_found; [exact T|].
    unfold impl_get. rewrite Da. unfold regularize. rewrite N, mget_put_eq. reflexivity.
  - intros n N. rewrite (ctx_get_plain _ _ o _ Ec K), (ctx_get_plain _ _ o _ Ec1 K). apply dget_impls. intros b.
    unfold impl_get. destruct (Nat.eq_dec b a) as [->|Nb]; [|now rewrite (Db b Nb)].
    rewrite Da, M. unfold regularize. now rewrite mget_put_neq.
  - intros n N (o2 & a2 & m2 & E2 & T2 & M2 & G2).
    rewrite Ec in E2. injection E2 as <-. rewrite T in T2. injection T2 as <-. rewrite M in M2. injection M2 as <-.
    exists o, a, (mput (to_lower (i_name i)) (Some d) m). split; [exact Ec1|]. split; [exact T|]. split; [exact Da|].
    now rewrite mget_put_neq.
  - intros Lc n N. exists o, a, (mput (to_lower (i_name i)) (Some d) m), d. split; [exact Ec1|]. split; [exact T|].
    split; [exact Da|]. split; [rewrite N; apply mget_put_eq|]. exists dc. split; [|exact Lc].
    cbn. rewrite nth_error_app2 by lia. now rewrite Nat.sub_diag.
  - intros n (o2 & a2 & m2 & d2 & E2 & T2 & M2 & G2 & (x & Dx & Lx)).
    rewrite Ec in E2. injection E2 as <-. rewrite T in T2. injection T2 as <-. rewrite M in M2. injection M2 as <-.
    exists o, a, (mput (to_lower (i_name i)) (Some d) m), d2. split; [exact Ec1|]. split; [exact T|]. split; [exact Da|].
    split; [|exists x; auto]. rewrite mget_put_neq; [exact G2|]. congruence.
Qed.

(** ** The items *)
Definition more_uses (s s' : pst) : Prop :=
  s_ctx s' = s_ctx s /\ s_post s' = s_post s /\
  exists l, s_heap s' = with_uses (h_uses (s_heap s) ++ l) (s_heap s).
Lemma more_place s s' : same_but_place s s' -> more_uses s s'.
Proof.
  intros (C & P & H). split; [congruence|]. split; [congruence|]. exists []. rewrite app_nil_r, <- H.
  now destruct (s_heap s).
Qed.
Lemma more_trans s1 s2 s3 : more_uses s1 s2 -> more_uses s2 s3 -> more_uses s1 s3.
Proof.
  intros (A1 & A2 & l1 & A3) (B1 & B2 & l2 & B3). split; [congruence|]. split; [congruence|].
  exists (l1 ++ l2). rewrite B3, A3. cbn. now rewrite app_assoc.
Qed.
Lemma say_more s s' us l : more_uses s s' -> uses_say (s_heap s) us l -> uses_say (s_heap s') us l.
Proof.
  intros (_ & _ & more & E) H. unfold uses_say in *. rewrite E. cbn.
  induction H as [|a i us l (o & Eo & Ho) H IH]; constructor; [|exact IH].
  exists o. split; [|exact Ho]. rewrite nth_error_app1; [exact Eo|]. apply nth_error_Some. congruence.
Qed.

Lemma wp_onheap {A} (f : nat -> heap -> hres A) s a h' (Q : A -> pst -> Prop) :
  f (s_ctx s) (s_heap s) = HOk a h' -> Q a (with_heap h' s) -> wp (OnHeap f) s Q.
Proof. intros E H. eapply wp_run; [|exact H]. cbn [run]. now rewrite E. Qed.

(** No two of one clause are the same object. *)
Lemma uses_item_ok text s i w ws : stands text s (write_uses_item i ++ w :: ws) -> w <> wkey "IN" ->
  wp parse_uses_item s (fun a s' => uses_say (s_heap s') [a] [i] /\ stands text s' (w :: ws) /\ more_uses s s' /\
    length (h_uses (s_heap s)) <= a /\ a < length (h_uses (s_heap s'))).
Proof.
  intros St Nw. destruct i as [n p]. unfold write_uses_item in St. cbn [fst snd] in St. unfold parse_uses_item.
  destruct (stands_cur _ _ _ _ St) as (t & C & Wt & _).
  apply wp_bind. eapply wp_expect; [exact C| |]. { rewrite type_w, Wt. reflexivity. }
  destruct p as [p|]; cbn [app] in St.
  - apply wp_bind. apply wp_bind. eapply wp_next; [exact St|discriminate|]. intros t2 s2 C2 W2 St2 SB2.
    cbn [hd_error] in W2. apply some_eq in W2. cbn beta iota. apply wp_ret. rewrite kw_w, W2.
    replace (weqb (wkey "IN") (wkey "IN")) with true by (symmetry; now apply weqb_eq).
    apply wp_bind. apply wp_bind. apply wp_bind. eapply wp_next; [exact St2|discriminate|]. intros t3 s3 C3 W3 St3 SB3.
    cbn [hd_error] in W3. apply some_eq in W3. cbn beta iota. apply wp_ret. apply wp_bind. unfold parse_string_factor. rewrite type_w, W3. cbn [fst ttype_eqb orb].
    apply wp_bind. eapply wp_next; [exact St3|discriminate|]. intros t4 s4 C4 _ St4 SB4. apply wp_ret. apply wp_ret.
    unfold new_uses. eapply wp_onheap; [reflexivity|].
    assert (M : more_uses s s4).
    { eapply more_trans; [apply more_place; exact SB2|]. eapply more_trans; [apply more_place; exact SB3|]. now apply more_place. }
    split.
    { repeat constructor. eexists. split; [cbn; apply nth_app_new|]. cbn [u_ident u_path u_unit new_ident i_name fst snd]. rewrite value_w, W3, (proj2 (wident_inv _ _ Wt)). repeat split; auto. discriminate. }
    split; [now apply stands_heap|]. split.
    { eapply more_trans; [exact M|]. split; [reflexivity|]. split; [reflexivity|]. eexists; reflexivity. }
    destruct M as (_ & _ & l & E). rewrite E. cbn. rewrite !app_length. cbn. lia.
  - apply wp_bind. apply wp_bind. eapply wp_next; [exact St|discriminate|]. intros t2 s2 C2 W2 St2 SB2.
    cbn [hd_error] in W2. apply some_eq in W2. cbn beta iota. apply wp_ret. rewrite kw_w, W2.
    replace (weqb w (wkey "IN")) with false by (symmetry; now apply weqb_neq).
    apply wp_bind. apply wp_ret. unfold new_uses. eapply wp_onheap; [reflexivity|].
    split.
    { repeat constructor. eexists. split; [cbn; apply nth_app_new|]. cbn [u_ident u_path u_unit new_ident i_name fst snd]. rewrite (proj2 (wident_inv _ _ Wt)). repeat split; auto. discriminate. }
    split; [now apply stands_heap|]. split.
    { eapply more_trans; [apply more_place; exact SB2|]. split; [reflexivity|]. split; [reflexivity|]. eexists; reflexivity. }
    apply more_place in SB2. destruct SB2 as (_ & _ & l & E). rewrite E. cbn. rewrite !app_length. cbn. lia.
Qed.

Lemma uses_loop text rest l : forall acc fuel s, l <> [] -> length l <= fuel ->
  stands text s (commas (map write_uses_item l) ++ wsym ";" :: rest) ->
  wp (until fuel (sym ";") (Some (sym ",")) (append_with parse_uses_item) acc) s
     (fun r s' => (exists us, r = acc ++ us /\ uses_say (s_heap s') us l /\ NoDup us /\
                    forall a, In a us -> length (h_uses (s_heap s)) <= a) /\
       stands text s' (wsym ";" :: rest) /\ more_uses s s').
Proof.
  induction l as [|x l IH]; intros acc fuel s NE Lf St; [congruence|].
  destruct fuel as [|fuel]; [cbn in Lf; lia|].
  unfold until. cbn [loop]. apply wp_bind. unfold until_step at 1. apply wp_bind.
  unfold append_with at 1. apply wp_bind. destruct l as [|y l].
  - cbn [map commas] in St. eapply wp_conseq.
    { apply (uses_item_ok text s x _ _ St). discriminate. }
    intros a s1 (Sa & St1 & M1 & La & Lb). destruct (stands_cur _ _ _ _ St1) as (t & C & Wt & _).
    apply wp_ret. apply wp_bind. eapply wp_cur_opt; [exact C|]. rewrite sym_w, Wt.
    replace (weqb (wsym ";") (wsym ";")) with true by (symmetry; now apply weqb_eq).
    apply wp_ret, wp_ret. split; [|auto]. exists [a]. split; [reflexivity|]. split; [exact Sa|].
    split; [repeat constructor; auto|]. intros b [<-|[]]. exact La.
  - cbn [map] in St. rewrite commas_cons in St by discriminate. rewrite <- app_assoc in St. cbn [app] in St.
    eapply wp_conseq.
    { apply (uses_item_ok text s x _ _ St). discriminate. }
    intros a s1 (Sa & St1 & M1 & La & Lb). destruct (stands_cur _ _ _ _ St1) as (t & C & Wt & _).
    apply wp_ret. apply wp_bind. eapply wp_cur_opt; [exact C|]. rewrite sym_w, Wt.
    replace (weqb (wsym ",") (wsym ";")) with false by reflexivity.
    apply wp_bind. cbn [validate]. rewrite sym_w, Wt.
    replace (weqb (wsym ",") (wsym ",")) with true by (symmetry; now apply weqb_eq). apply wp_ret.
    apply wp_bind. eapply wp_next; [exact St1|apply app_nonempty; discriminate|]. intros t1 s2 C1 _ St2 SB2.
    assert (Eh : s_heap s2 = s_heap s1) by (symmetry; apply SB2).
    apply more_place in SB2. apply wp_ret. eapply wp_conseq.
    { apply (IH (acc ++ [a]) fuel s2); [discriminate|cbn in *; lia|exact St2]. }
    intros r s3 ((us & -> & Su & Nu & Lu) & St3 & M3). split; [|split; [exact St3|]].
    + exists (a :: us). rewrite <- app_assoc. split; [reflexivity|]. split.
      * apply (Forall2_app (l1 := [a]) (l1' := [x])); [|exact Su]. apply (say_more s1); [|exact Sa].
        eapply more_trans; eauto.
      * rewrite Eh in Lu. split.
        -- constructor; [|exact Nu]. intros I. apply Lu in I. lia.
        -- intros b [<-|I]; [exact La|]. apply Lu in I. lia.
    + eapply more_trans; [exact M1|]. eapply more_trans; eauto.
Qed.

Lemma more_undeclared s s' n : more_uses s s' -> undeclared (s_heap s) (s_ctx s) n -> undeclared (s_heap s') (s_ctx s') n.
Proof. intros (C & _ & l & E). rewrite C, E. auto. Qed.
Lemma more_get s s' n : parser_context s -> more_uses s s' ->
  ctx_get (s_heap s') (s_ctx s') n = ctx_get (s_heap s) (s_ctx s) n.
Proof.
  intros (o & Ec & K) (C & _ & l & E). rewrite C, E. rewrite (ctx_get_plain _ _ o _ Ec K).
  rewrite (ctx_get_plain (with_uses _ _) _ o _ Ec K). now apply dget_same_maps.
Qed.

(** ** The names *)
Lemma set_uses_ok us l : forall s, parser_context s -> uses_say (s_heap s) us l ->
  Forall (undeclared (s_heap s) (s_ctx s)) (map fst l) -> distinct_names (map fst l) ->
  exists h', run (set_uses us) s = OOk tt (with_heap h' s) /\ h_uses h' = h_uses (s_heap s) /\
    Forall2 (fun a i => forall n, same_name n (fst i) -> names_item h' (s_ctx s) n a) us l /\
    (forall n, Forall (fun i => ~ same_name n (fst i)) l -> ctx_get h' (s_ctx s) n = ctx_get (s_heap s) (s_ctx s) n) /\
    (forall e x, deref (s_heap s) e = Some x -> deref h' e = Some x).
Proof.
  revert l. induction us as [|a us IH]; intros l s PC Sy V D.
  - inversion Sy; subst. exists (s_heap s). cbn [set_uses run]. rewrite with_same_heap. repeat split; auto.
  - inversion Sy as [|? i ? l' (o & Eo & N & P & Un & Lc) Sy']; subst. cbn [map] in V, D.
    apply Forall_cons_iff in V as [Vi V]. unfold distinct_names in D. cbn [map] in D.
    apply NoDup_cons_iff in D as [Ni D].
    pose proof PC as (co & Ec & K). cbn [set_uses].
    destruct (declare_new (s_heap s) (s_ctx s) co (mkDecl (u_ident o) (NUses a)) Ec K) as
      (h1 & d & R & Dd & Ec1 & Eu & Keep & Hit & Miss & Free & Tk & Tk0).
    { cbn [d_ident]. now rewrite N. }
    cbn [d_ident] in *. rewrite N in *.
    assert (R1 : run (OnHeap (fun c h => match nth_error (h_uses h) a with
        | Some o => match ctx_set h c [mkDecl (u_ident o) (NUses a)] with
                    | SOk h' => HOk tt h' | SErr h' i => HErr (EDup i) h' | SPanic => HPanic end
        | None => HPanic end)) s = OOk tt (with_heap h1 s)).
    { cbn [run]. now rewrite Eo, R. }
    rewrite run_bind, R1.
    destruct (IH l' (with_heap h1 s)) as (h' & R2 & Eu2 & Nm & Oth & Kp).
    + exists co. auto.
    + unfold uses_say in *. cbn [s_heap with_heap]. now rewrite Eu.
    + cbn [s_heap with_heap s_ctx]. rewrite Forall_forall in V |- *. intros n I. apply Free; [|auto].
      intros S. apply Ni. rewrite <- S. now apply in_map.
    + exact D.
    + cbn [s_heap with_heap s_ctx] in *. exists h'. split; [exact R2|]. split; [congruence|]. split; [|split].
      * constructor; [|exact Nm]. intros n S. exists d, (mkDecl (u_ident o) (NUses a)). split; [|auto].
        rewrite Oth; [auto|]. apply Forall_forall. intros j I S2. apply Ni. unfold same_name in *.
        rewrite <- S, S2. apply in_map_iff. exists (fst j). split; [auto|]. now apply in_map.
      * intros n F. apply Forall_cons_iff in F as [F1 F2]. rewrite Oth by exact F2. auto.
      * auto.
Qed.

Theorem uses_clause_round_trip :
  forall text s l rest fuel,
    parser_context s -> l <> [] -> distinct_names (map fst l) ->
    Forall (undeclared (s_heap s) (s_ctx s)) (map fst l) ->
    stands text s (write_uses l ++ rest) -> length l <= S fuel ->
    exists us s', run (parse_uses_clause (recs_at fuel)) s = OOk us s' /\
      uses_say (s_heap s') us l /\ NoDup us /\ stands text s' (wsym ";" :: rest) /\ s_ctx s' = s_ctx s /\
      Forall2 (fun a i => forall n, same_name n (fst i) -> names_item (s_heap s') (s_ctx s') n a) us l /\
      (forall n, Forall (fun i => ~ same_name n (fst i)) l ->
         ctx_get (s_heap s') (s_ctx s') n = ctx_get (s_heap s) (s_ctx s) n).
Proof.
  intros text s l rest fuel PC NE D V St L. unfold write_uses in St.
  cbn [app] in St. rewrite <- app_assoc in St. cbn [app] in St.
  assert (X : wp (parse_uses_clause (recs_at fuel)) s (fun us s' =>
      uses_say (s_heap s') us l /\ NoDup us /\ stands text s' (wsym ";" :: rest) /\ s_ctx s' = s_ctx s /\
      Forall2 (fun a i => forall n, same_name n (fst i) -> names_item (s_heap s') (s_ctx s') n a) us l /\
      (forall n, Forall (fun i => ~ same_name n (fst i)) l ->
         ctx_get (s_heap s') (s_ctx s') n = ctx_get (s_heap s) (s_ctx s) n))).
  { unfold parse_uses_clause. destruct (stands_cur _ _ _ _ St) as (t & C & Wt & _).
    apply wp_bind. eapply wp_expect; [exact C| |]. { rewrite kw_w, Wt. now apply weqb_eq. }
    apply wp_bind. eapply wp_next; [exact St|apply app_nonempty; discriminate|]. intros t1 s1 C1 _ St1 SB1.
    apply wp_bind. unfold until_list. eapply wp_conseq.
    { apply (uses_loop text rest l [] (r_fuel (recs_at fuel)) s1 NE); [|exact St1].
      destruct fuel; cbn [recs_at r_fuel]; lia. }
    intros r s2 ((us & -> & Su & Nu & _) & St2 & M2). cbn [app].
    assert (M : more_uses s s2) by (eapply more_trans; [apply more_place; exact SB1|exact M2]).
    assert (PC2 : parser_context s2).
    { destruct PC as (o & Ec & K). destruct M as (C' & _ & ml & E'). exists o. rewrite C', E'. auto. }
    destruct (set_uses_ok us l s2 PC2 Su) as (h' & R & Eu & Nm & Oth & _).
    { rewrite Forall_forall in V |- *. intros n I. eapply more_undeclared; eauto. }
    { exact D. }
    apply wp_bind. eapply wp_run; [exact R|]. apply wp_ret. cbn [s_heap with_heap s_ctx].
    split; [unfold uses_say in *; now rewrite Eu|]. split; [exact Nu|]. split; [now apply stands_heap|]. split; [apply M|].
    split; [exact Nm|]. intros n F. rewrite Oth by exact F. now apply more_get. }
  apply wp_elim in X as (us & s' & R & X). exists us, s'. auto.
Qed.


(** ** Refusals *)
Lemma taken_not_free h c n : taken h c n -> undeclared h c n -> False.
Proof.
  intros (o & a & m & d & E & T & M & G & _) (o2 & a2 & m2 & E2 & T2 & M2 & G2). congruence.
Qed.
Lemma set_uses_any us l : forall s, parser_context s -> uses_say (s_heap s) us l ->
  Forall (fun n => undeclared (s_heap s) (s_ctx s) n \/ taken (s_heap s) (s_ctx s) n) (map fst l) ->
  (exists h', run (set_uses us) s = OOk tt (with_heap h' s) /\
     Forall (undeclared (s_heap s) (s_ctx s)) (map fst l) /\ distinct_names (map fst l)) \/
  (exists i h', run (set_uses us) s = OErr (EDup i) (with_heap h' s) /\ In (i_name i) (map fst l)).
Proof.
  revert l. induction us as [|a us IH]; intros l s PC Sy V.
  - inversion Sy; subst. left. exists (s_heap s). cbn [set_uses run]. rewrite with_same_heap.
    split; [reflexivity|]. split; constructor.
  - inversion Sy as [|? i ? l' (o & Eo & N & P & Un & Lc) Sy']; subst. cbn [map] in V.
    apply Forall_cons_iff in V as [Vi V]. cbn [set_uses]. rewrite run_bind.
    pose proof PC as (co & Ec & K). destruct Vi as [Vi|Vi].
    + destruct (declare_new (s_heap s) (s_ctx s) co (mkDecl (u_ident o) (NUses a)) Ec K) as
        (h1 & d & R & Dd & Ec1 & Eu & Keep & Hit & Miss & Free & Tk & Tk0).
      { cbn [d_ident]. now rewrite N. }
      cbn [d_ident] in *. rewrite N in *. cbn [run]. rewrite Eo, R.
      destruct (IH l' (with_heap h1 s)) as [(h' & R2 & V2 & D2)|(j & h' & R2 & J)].
      * exists co. auto.
      * unfold uses_say in *. cbn [s_heap with_heap]. now rewrite Eu.
      * cbn [s_heap with_heap s_ctx]. rewrite Forall_forall in V |- *. intros n I.
        destruct (runes_equal (to_lower n) (to_lower (fst i))) eqn:Q.
        -- apply runes_equal_eq in Q. right. now apply Tk.
        -- assert (NQ : ~ same_name n (fst i)) by (intros S; apply runes_equal_eq in S; congruence).
           destruct (V n I); auto.
      * left. exists h'. split; [exact R2|].
        assert (Ni : forall n, In n (map fst l') -> ~ same_name n (fst i)).
        { intros n I S. rewrite Forall_forall in V2. eapply taken_not_free; [apply Tk; [exact Lc|exact S]|]. now apply V2. }
        split.
        -- constructor; [exact Vi|]. rewrite Forall_forall in V |- *. intros n I. destruct (V n I) as [F|F]; [exact F|].
           exfalso. rewrite Forall_forall in V2. eapply taken_not_free; [apply Tk0; exact F|]. now apply V2.
        -- unfold distinct_names. cbn [map]. constructor; [|exact D2]. intros I. apply in_map_iff in I as (n & E & I).
           now apply (Ni n I).
      * right. exists j, h'. split; [exact R2|]. now right.
    + right. destruct Vi as (o2 & a2 & m & d & E2 & T & M & G & (x & Dx & Lx)).
      rewrite Ec in E2. injection E2 as <-.
      assert (R : ctx_set (s_heap s) (s_ctx s) [mkDecl (u_ident o) (NUses a)] =
                  SErr (with_decls (h_decls (s_heap s) ++ [mkDecl (u_ident o) (NUses a)]) (s_heap s)) (u_ident o)).
      { unfold ctx_set. rewrite Ec. unfold map_set, alloc_decls. cbn [map length seq combine d_ident].
        rewrite (dset_impl _ _ a2 _ T). cbn [impl_set]. cbn [h_maps with_decls]. rewrite M. unfold regularize. rewrite N, G.
        assert (Dx' : deref (with_decls (h_decls (s_heap s) ++ [mkDecl (u_ident o) (NUses a)]) (s_heap s)) d = Some x).
        { destruct d as [e|e]; cbn in *; [exact Dx|]. rewrite nth_error_app1; [exact Dx|]. apply nth_error_Some. congruence. }
        rewrite Dx'. cbn [option_map]. destruct (i_loc (u_ident o)); [|congruence]. destruct (i_loc (d_ident x)); [reflexivity|congruence]. }
      exists (u_ident o). eexists. cbn [run]. rewrite Eo, R. split; [reflexivity|]. left. auto.
Qed.

Theorem uses_clause_names_are_new :
  forall text s l rest fuel,
    parser_context s -> l <> [] ->
    Forall (fun n => undeclared (s_heap s) (s_ctx s) n \/ taken (s_heap s) (s_ctx s) n) (map fst l) ->
    stands text s (write_uses l ++ rest) -> length l <= S fuel ->
    ~ distinct_names (map fst l) \/ Exists (taken (s_heap s) (s_ctx s)) (map fst l) ->
    exists i s', run (parse_uses_clause (recs_at fuel)) s = OErr (EDup i) s' /\ In (i_name i) (map fst l).
Proof.
  intros text s l rest fuel PC NE V St L Bad. unfold write_uses in St.
  cbn [app] in St. rewrite <- app_assoc in St. cbn [app] in St.
  unfold parse_uses_clause. destruct (stands_cur _ _ _ _ St) as (t & C & Wt & _).
  unfold expect. rewrite !run_bind. cbn [run]. rewrite C. cbn [validate]. rewrite kw_w, Wt.
  replace (weqb (wkey "USES") (wkey "USES")) with true by (symmetry; now apply weqb_eq). cbn [run].
  assert (exists w2 ws2, commas (map write_uses_item l) ++ wsym ";" :: rest = w2 :: ws2) as (w2 & ws2 & Ew).
  { destruct (commas (map write_uses_item l)); cbn; eauto. }
  rewrite Ew in St. destruct (stands_next _ _ _ _ _ St) as (t1 & s1 & N1 & _ & C1 & St1 & SB1). rewrite <- Ew in St1.
  rewrite N1.
  assert (X := uses_loop text rest l [] (r_fuel (recs_at fuel)) s1 NE ltac:(destruct fuel; cbn [recs_at r_fuel]; lia) St1).
  apply wp_elim in X as (r & s2 & Rl & (us & -> & Su & Nu & _) & St2 & M2). unfold until_list.
  change (run (Bind (until (r_fuel (recs_at fuel)) (sym ";") (Some (sym ",")) (append_with parse_uses_item) [])
    (fun l0 => Bind (set_uses l0) (fun _ => Ret l0))) s1) with
    (match run (until (r_fuel (recs_at fuel)) (sym ";") (Some (sym ",")) (append_with parse_uses_item) []) s1 with
     | OOk a s' => run (Bind (set_uses a) (fun _ => Ret a)) s' | OErr e s' => OErr e s'
     | OPanic => OPanic | OHang => OHang | OStuck => OStuck end) || idtac.
  rewrite Rl. cbn [app].
  assert (M : more_uses s s2) by (eapply more_trans; [apply more_place; exact SB1|exact M2]).
  assert (PC2 : parser_context s2).
  { destruct PC as (o & Ec & K). destruct M as (C' & _ & ml & E'). exists o. rewrite C', E'. auto. }
  assert (Tk : forall n, taken (s_heap s) (s_ctx s) n -> taken (s_heap s2) (s_ctx s2) n).
  { destruct M as (C' & _ & ml & E'). intros n. rewrite C', E'. auto. }
  destruct (set_uses_any us l s2 PC2 Su) as [(h' & R & F & D)|(i & h' & R & I)].
  - rewrite Forall_forall in V |- *. intros n I. destruct (V n I) as [Q|Q]; [left|right; auto]. eapply more_undeclared; eauto.
  - exfalso. destruct Bad as [Bad|Bad]; [auto|]. apply Exists_exists in Bad as (n & I & T).
    rewrite Forall_forall in F. eapply taken_not_free; [apply Tk; exact T|auto].
  - rewrite R. eauto.
Qed.

(** ** The converse *)
Lemma uses_item_inv text s a s' : parsing text s -> run parse_uses_item s = OOk a s' ->
  exists i, uses_say (s_heap s') [a] [i] /\ more_uses s s' /\ parsing text s' /\
    match snd i with Some p => lexeme CharacterString p | None => True end /\
    forall rest, stands text s' rest -> stands text s (write_uses_item i ++ rest).
Proof.
  intros P E. pose proof (parsing_run _ _ _ _ _ P E) as P'. unfold parse_uses_item in E.
  apply bind_inv in E as (t & s1 & Et & E). apply expect_inv in Et as (-> & C & Tt). destruct (word_ident _ Tt) as [Wt _].
  apply bind_inv in E as (t2 & s2 & E2 & E). apply bind_inv in E2 as (c & s3 & En & E2).
  apply (next_stepped text) in En as (St2 & -> & P2); [|exact P].
  destruct (s_cur s3) as [u|] eqn:C2; [|discriminate]. apply ret_inv in E2 as [-> ->].
  apply bind_inv in E as (p & s4 & Ep & E). unfold new_uses in E. cbn [run] in E. injection E as <- <-.
  rewrite kw_w in Ep. destruct (weqb (word_of u) (wkey "IN")) eqn:W2.
  - apply weqb_eq in W2. apply bind_inv in Ep as (v & s5 & Ev & Ep). apply bind_inv in Ev as (c & s6 & En & Ev).
    apply (next_stepped text) in En as (St3 & -> & P3); [|exact P2].
    destruct (s_cur s6) as [w|] eqn:C3; [|discriminate]. apply ret_inv in Ev as [-> ->].
    apply bind_inv in Ep as (q & s7 & Eq & Ep). apply ret_inv in Ep as [-> ->].
    unfold parse_string_factor in Eq. cbn [orb] in Eq. destruct (p_type CharacterString w) eqn:Tw.
    2:{ now apply fail_inv in Eq. }
    apply bind_inv in Eq as (c & s8 & En & Eq). apply (next_stepped text) in En as (St4 & _ & P4); [|exact P3].
    apply ret_inv in Eq as [-> ->].
    assert (Vw : value w = raw w) by (unfold value; unfold p_type in Tw; destruct (t_type w); try discriminate; reflexivity).
    exists (raw t, Some (value w)). split.
    { repeat constructor. eexists. split; [cbn; apply nth_app_new|]. cbn. repeat split. discriminate. }
    split.
    { eapply more_trans; [apply more_place; exact (proj1 St2)|]. eapply more_trans; [apply more_place; exact (proj1 St3)|].
      eapply more_trans; [apply more_place; exact (proj1 St4)|]. split; [reflexivity|]. split; [reflexivity|]. eexists; reflexivity. }
    split; [exact P'|]. split.
    { cbn [snd]. rewrite Vw. assert (Ty : t_type w = CharacterString) by (unfold p_type in Tw; destruct (t_type w); try discriminate; reflexivity).
      rewrite <- Ty. eapply token_lexeme; [|auto]. destruct P3 as [_ P3]. apply (P3 _ C3). }
    intros rest St. unfold write_uses_item. cbn [fst snd app]. rewrite <- Wt, <- W2.
    replace (CharacterString, value w) with (word_of w)
      by (unfold word_of; f_equal; unfold p_type in Tw; destruct (t_type w); try discriminate; reflexivity).
    apply (proj2 St2 _ _ C), (proj2 St3 _ _ C2), (proj2 St4 _ _ C3). exact St.
  - apply ret_inv in Ep as [-> ->]. exists (raw t, None). split.
    { repeat constructor. eexists. split; [cbn; apply nth_app_new|]. cbn. repeat split. discriminate. }
    split.
    { eapply more_trans; [apply more_place; exact (proj1 St2)|]. split; [reflexivity|]. split; [reflexivity|]. eexists; reflexivity. }
    split; [exact P'|]. split; [exact I|].
    intros rest St. unfold write_uses_item. cbn [fst snd app]. rewrite <- Wt. apply (proj2 St2 _ _ C). exact St.
Qed.

Lemma uses_loop_inv text fuel : forall acc s r s', parsing text s ->
  run (until fuel (sym ";") (Some (sym ",")) (append_with parse_uses_item) acc) s = OOk r s' ->
  exists us l, r = acc ++ us /\ l <> [] /\ uses_say (s_heap s') us l /\ more_uses s s' /\ parsing text s' /\
    Forall (fun i => match snd i with Some p => lexeme CharacterString p | None => True end) l /\
    (exists t, s_cur s' = Some t /\ word_of t = wsym ";") /\
    forall rest, stands text s' rest -> stands text s (commas (map write_uses_item l) ++ rest).
Proof.
  induction fuel as [|fuel IH]; intros acc s r s' P E; [discriminate|]. unfold until in E.
  apply loop_inv in E as (v & s1 & E1 & E2). unfold until_step in E1.
  apply bind_inv in E1 as (o & s2 & Ex & E1). unfold append_with in Ex. apply bind_inv in Ex as (x & s0 & Ex & Er).
  apply ret_inv in Er as [-> ->]. destruct (uses_item_inv text _ _ _ P Ex) as (i & Si & Mi & P2 & Li & W2).
  apply bind_inv in E1 as (b & s3 & Eb & E1).
  apply cur_opt_inv in Eb as [-> ->]. destruct (s_cur s0) as [t|] eqn:C; [|discriminate].
  rewrite sym_w in E1. destruct (weqb (word_of t) (wsym ";")) eqn:Et.
  - apply weqb_eq in Et. apply ret_inv in E1 as [-> ->]. destruct E2 as [-> ->]. exists [x], [i].
    split; [reflexivity|]. split; [discriminate|]. split; [exact Si|]. split; [exact Mi|]. split; [exact P2|].
    split; [repeat constructor; exact Li|]. split; [eauto|]. exact W2.
  - apply bind_inv in E1 as (t' & s3 & Ec & E1). apply validate_inv in Ec as (-> & [= <-] & Wt).
    rewrite sym_w, weqb_eq in Wt.
    apply bind_inv in E1 as (c & s4 & En & E1). apply (next_stepped text) in En as ((SB & Hs) & _ & P4); [|exact P2].
    apply ret_inv in E1 as [-> ->].
    destruct (IH _ _ _ _ P4 E2) as (us & l & -> & NE & Su & M5 & P5 & L5 & C5 & W5). exists (x :: us), (i :: l).
    rewrite <- app_assoc. split; [reflexivity|]. split; [discriminate|]. split.
    { apply (Forall2_app (l1 := [x]) (l1' := [i])); [|exact Su]. apply (say_more s0); [|exact Si].
      eapply more_trans; [apply more_place; exact SB|exact M5]. }
    split; [eapply more_trans; [exact Mi|]; eapply more_trans; [apply more_place; exact SB|exact M5]|].
    split; [exact P5|]. split; [now constructor|]. split; [exact C5|].
    intros rest St. cbn [map]. rewrite commas_cons by (destruct l; [congruence|discriminate]). rewrite <- app_assoc. cbn [app].
    apply W2. rewrite <- Wt. apply (Hs _ _ C). now apply W5.
Qed.

Lemma impl_set_keeps a ds : forall h h', impl_set h a ds = SOk h' -> exists ms, h' = with_maps ms h.
Proof.
  induction ds as [|[i d] ds IH]; intros h h' E; cbn [impl_set] in E.
  - injection E as <-. exists (h_maps h). now destruct h.
  - destruct (nth_error (h_maps h) a); [|discriminate]. destruct (mget _ _) as [[old|]|]; try discriminate.
    + destruct (i_loc i); [|discriminate]. destruct (option_map _ _) as [[?|]|]; discriminate.
    + apply IH in E as (ms & ->). now exists ms.
Qed.
Lemma dset_keeps h m ds h' : dset h m ds = SOk h' -> exists ms, h' = with_maps ms h.
Proof.
  induction m as [a|p a IH|ms IH| |] using dmap_ind'; cbn; try discriminate.
  - apply impl_set_keeps.
  - apply impl_set_keeps.
  - destruct ms as [|m ms]; [discriminate|]. now apply Forall_inv in IH.
Qed.
Lemma set_uses_keeps us : forall s r s', run (set_uses us) s = OOk r s' ->
  s_tok s' = s_tok s /\ s_cur s' = s_cur s /\ s_ctx s' = s_ctx s /\ h_uses (s_heap s') = h_uses (s_heap s).
Proof.
  induction us as [|a us IH]; intros s r s' E; cbn [set_uses] in E.
  - apply ret_inv in E as [_ ->]. auto.
  - apply bind_inv in E as (x & s1 & E1 & E). cbn [run] in E1.
    destruct (nth_error (h_uses (s_heap s)) a) as [o|]; [|discriminate].
    destruct (ctx_set (s_heap s) (s_ctx s) [mkDecl (u_ident o) (NUses a)]) as [h1|h1 i|] eqn:R; try discriminate.
    injection E1 as <- <-. apply IH in E as (A1 & A2 & A3 & A4). cbn [s_tok s_cur s_ctx s_heap with_heap] in *.
    rewrite A1, A2, A3, A4. repeat split. unfold ctx_set in R. destruct (nth_error (h_ctxs _) _) as [co|]; [|discriminate].
    unfold map_set, alloc_decls in R. cbn [map length seq combine d_ident] in R.
    apply dset_keeps in R as (ms & ->). reflexivity.
Qed.

Theorem uses_clause_is_what_was_read :
  forall text s fuel us s',
    parsing text s -> run (parse_uses_clause (recs_at fuel)) s = OOk us s' ->
    exists l, l <> [] /\ uses_say (s_heap s') us l /\ s_ctx s' = s_ctx s /\
      Forall (fun i => match snd i with Some p => lexeme CharacterString p | None => True end) l /\
      (exists t, s_cur s' = Some t /\ word_of t = wsym ";") /\
      (forall rest, stands text s' (wsym ";" :: rest) -> stands text s (write_uses l ++ rest)).
Proof.
  intros text s fuel us s' P E. unfold parse_uses_clause in E.
  apply bind_inv in E as (t & s1 & Et & E). apply expect_inv in Et as (-> & C & Tt). rewrite kw_w, weqb_eq in Tt.
  apply bind_inv in E as (c & s2 & En & E). apply (next_stepped text) in En as (St2 & -> & P2); [|exact P].
  apply bind_inv in E as (us0 & s3 & El & E). unfold until_list in El.
  destruct (uses_loop_inv text _ _ _ _ _ P2 El) as (us1 & l & -> & NE & Su & M & P3 & Ll & Ct & W).
  apply bind_inv in E as (x & s4 & Es & E). apply ret_inv in E as [-> ->]. cbn [app] in *.
  destruct (set_uses_keeps _ _ _ _ Es) as (K1 & K2 & K3 & K4).
  exists l. split; [exact NE|]. split; [unfold uses_say in *; now rewrite K4|].
  split. { rewrite K3. destruct M as [-> _]. symmetry. apply (proj1 St2). }
  split; [exact Ll|]. split; [now rewrite K2|]. intros rest St. unfold write_uses. rewrite <- Tt. cbn [app].
  apply (proj2 St2 _ _ C). rewrite <- app_assoc. cbn [app]. apply W.
  destruct St as (u & ws' & Ew & Cu & A). rewrite K2 in Cu. rewrite K1 in A. exists u, ws'. auto.
Qed.

Theorem effective_path_of_quoted :
  forall sep o p, u_path o = Some p -> lexeme CharacterString p ->
    exists w, p = rs "'" ++ w ++ rs "'" /\ unquoted_path o = w /\
      length (effective_path sep o) = length w /\
      forall k r, nth_error w k = Some r ->
        nth_error (effective_path sep o) k = Some (if (r =? 92)%N then sep else r).
Proof.
  intros sep o p E L. inversion L; subst. exists b. split; [reflexivity|].
  assert (X : unquoted_path o = b).
  { unfold unquoted_path. rewrite E. cbn [trim_prefix_quote]. unfold trim_suffix_quote. rewrite rev_unit.
    apply rev_involutive. }
  split; [exact X|]. unfold effective_path. rewrite X. split; [apply map_length|]. intros k r N.
  now apply (map_nth_error (fun r => if (r =? 92)%N then sep else r)).
Qed.

End WithUnicode.
