(** What a method that returns has done to the scopes: it declared names in the scope where
    the parser was, and perhaps the parser is left in a scope opened since. *)
From Coq Require Import String List NArith Bool Arith Lia.
From Verif Require Import ListUtil Runes Token Tokenizer Ast Ext ExtMain Heap Classes MapSpec MapFacts MapMain Prog Parser RunFacts.
Import ListNotations.
Local Open Scope list_scope.

Section WithUnicode.
Context {U : Unicode}.

(** ** Changes *)

(** A map with further maps before it. *)
Definition chain (l : list nat) (m : dmap) : dmap := fold_left DChained l m.
Definition keeps (m m' : mapobj) : Prop := forall k v, mget k m = Some (Some v) -> exists v', mget k m' = Some (Some v').
Definition same_maps (t : option nat) (h h' : heap) : Prop :=
  forall a m, nth_error (h_maps h) a = Some m ->
    exists m', nth_error (h_maps h') a = Some m' /\ (t <> Some a -> m' = m) /\ keeps m m'.
Record changed (c : nat) (h : heap) (h' : heap) : Prop := mkChanged {
  ch_ctxs : h_ctxs h' = h_ctxs h;
  ch_uses : h_uses h' = h_uses h; ch_units : h_units h' = h_units h; ch_progs : h_progs h' = h_progs h;
  ch_decls : exists l, h_decls h' = h_decls h ++ l;
  ch_maps : forall o, nth_error (h_ctxs h) c = Some o -> same_maps (target (cx_map o)) h h';
  ch_len : length (h_maps h) <= length (h_maps h') }.
Record evolved (s s' : pst) : Prop := mkEvolved {
  ev_uses : h_uses (s_heap s') = h_uses (s_heap s);
  ev_units : h_units (s_heap s') = h_units (s_heap s);
  ev_progs : h_progs (s_heap s') = h_progs (s_heap s);
  ev_decls : exists l, h_decls (s_heap s') = h_decls (s_heap s) ++ l;
  ev_maps : forall o, nth_error (h_ctxs (s_heap s)) (s_ctx s) = Some o ->
    same_maps (target (cx_map o)) (s_heap s) (s_heap s');
  ev_len : length (h_maps (s_heap s)) <= length (h_maps (s_heap s'));
  ev_ctxs : forall c o, nth_error (h_ctxs (s_heap s)) c = Some o -> c <> s_ctx s ->
    nth_error (h_ctxs (s_heap s')) c = Some o;
  ev_ctxlen : length (h_ctxs (s_heap s)) <= length (h_ctxs (s_heap s'));
  ev_at : s_ctx s' = s_ctx s \/ length (h_ctxs (s_heap s)) <= s_ctx s';
  ev_here : forall o, nth_error (h_ctxs (s_heap s)) (s_ctx s) = Some o ->
    exists l, nth_error (h_ctxs (s_heap s')) (s_ctx s') = Some (mkCtx (cx_kind o) (cx_path o) (chain l (cx_map o))) /\
      Forall (fun a => length (h_maps (s_heap s)) <= a) l;
  ev_kinds : forall c o, nth_error (h_ctxs (s_heap s)) c = Some o -> exists o', nth_error (h_ctxs (s_heap s')) c = Some o' /\
    cx_kind o' = cx_kind o /\ cx_path o' = cx_path o }.

Lemma keeps_refl m : keeps m m.
Proof. intros k v E. eauto. Qed.
Lemma keeps_trans a b c : keeps a b -> keeps b c -> keeps a c.
Proof. intros A B k v E. destruct (A k v E) as (v' & E'). eauto. Qed.
Lemma keeps_put k d m : keeps m (mput k (Some d) m).
Proof.
  intros k' v E. destruct (list_eq_dec N.eq_dec k' k) as [->|N].
  - rewrite mget_put_eq. eauto.
  - rewrite mget_put_neq by exact N. eauto.
Qed.
Lemma same_maps_refl t h : same_maps t h h.
Proof. intros a m E. exists m. split; [exact E|]. split; [auto|apply keeps_refl]. Qed.
Lemma same_maps_eq t h h' : h_maps h' = h_maps h -> same_maps t h h'.
Proof. intros E. unfold same_maps. rewrite E. apply same_maps_refl. Qed.
Lemma same_maps_more t h h' l : h_maps h' = h_maps h ++ l -> same_maps t h h'.
Proof.
  intros E a m N. exists m. rewrite E, nth_error_app1 by (eapply nth_lt; eauto). split; [exact N|].
  split; [auto|apply keeps_refl].
Qed.
Lemma same_maps_trans t t2 h1 h2 h3 : same_maps t h1 h2 -> same_maps t2 h2 h3 ->
  (forall a, a < length (h_maps h1) -> t <> Some a -> t2 <> Some a) -> same_maps t h1 h3.
Proof.
  intros A B T a m E. destruct (A a m E) as (m' & E' & S1 & K1). destruct (B a m' E') as (m2 & E2 & S2 & K2).
  exists m2. split; [exact E2|]. split; [|eapply keeps_trans; eauto].
  intros N. rewrite S2, S1; auto. apply T; [eapply nth_lt; eauto|exact N].
Qed.
Lemma chain_target l m : l <> [] -> exists a, In a l /\ target (chain l m) = Some a.
Proof.
  revert m. induction l as [|a l IH]; [congruence|]. intros m _. cbn [chain fold_left].
  destruct l as [|b l]; [exists a; split; [now left|reflexivity]|].
  destruct (IH (DChained m a)) as (x & I & E); [discriminate|]. exists x. split; [now right|exact E].
Qed.
Lemma chain_app l1 l2 m : chain (l1 ++ l2) m = chain l2 (chain l1 m).
Proof. apply fold_left_app. Qed.
Lemma ctx_eta o : mkCtx (cx_kind o) (cx_path o) (cx_map o) = o.
Proof. now destruct o. Qed.

Lemma evolved_changed s h' : changed (s_ctx s) (s_heap s) h' -> evolved s (with_heap h' s).
Proof.
  intros [C A1 A2 A3 D M L]. constructor; cbn [with_heap s_heap s_ctx]; auto; rewrite ?C; auto.
  - intros o E. exists []. rewrite E. split; [f_equal; symmetry; apply ctx_eta|constructor].
  - intros c o E. exists o. auto.
Qed.
Lemma changed_refl c h : changed c h h.
Proof. constructor; auto; [exists []; now rewrite app_nil_r|intros; apply same_maps_refl]. Qed.
Lemma evolved_same s s' : s_heap s' = s_heap s -> s_ctx s' = s_ctx s -> evolved s s'.
Proof.
  intros H C. constructor; rewrite ?H, ?C; auto.
  - exists []. now rewrite app_nil_r.
  - intros. apply same_maps_refl.
  - intros o E. exists []. rewrite E. split; [f_equal; symmetry; apply ctx_eta|constructor].
  - intros c o E. exists o. auto.
Qed.
Lemma evolved_trans s1 s2 s3 : evolved s1 s2 -> evolved s2 s3 ->
  (exists o, nth_error (h_ctxs (s_heap s1)) (s_ctx s1) = Some o) -> evolved s1 s3.
Proof.
  intros [A1 A2 A3 (l1 & A4) A5 A6 A7 A8 A9 A10 A11] [B1 B2 B3 (l2 & B4) B5 B6 B7 B8 B9 B10 B11] (o & Eo).
  destruct (A10 o Eo) as (c1 & C1 & F1). destruct (B10 _ C1) as (c2 & C2 & F2). cbn [cx_kind cx_path cx_map] in C2.
  constructor; try congruence; try lia.
  - exists (l1 ++ l2). now rewrite B4, A4, app_assoc.
  - intros o' E'. rewrite Eo in E'. injection E' as <-. eapply same_maps_trans; [exact (A5 o Eo)|exact (B5 _ C1)|].
    cbn [cx_map]. intros a La N E. destruct c1 as [|x c1]; [now apply N|].
    destruct (chain_target (x :: c1) (cx_map o)) as (b & I & T); [discriminate|]. rewrite T in E. injection E as ->.
    rewrite Forall_forall in F1. apply F1 in I. lia.
  - intros c o' E' N. apply B7; [now apply A7|]. intros ->. destruct A9 as [A9|A9]; [congruence|].
    apply nth_lt in E'. lia.
  - intros o' E'. rewrite Eo in E'. injection E' as <-. exists (c1 ++ c2). rewrite chain_app. split; [exact C2|].
    apply Forall_app. split; [exact F1|]. eapply Forall_impl; [|exact F2]. cbn. intros. lia.
  - intros c o' E'. destruct (A11 c o' E') as (o1 & X1 & K1 & P1). destruct (B11 c o1 X1) as (o2 & X2 & K2 & P2). exists o2.
    split; [exact X2|]. split; congruence.
Qed.

(** ** Methods *)
Definition anchored (s : pst) : Prop := exists o, nth_error (h_ctxs (s_heap s)) (s_ctx s) = Some o /\ forall p, cx_kind o <> KStack p.
Definition evolves {A} (p : prog A) : Prop := forall s a s', anchored s -> run p s = OOk a s' -> evolved s s'.
Lemma anchored_evolved s s' : anchored s -> evolved s s' -> anchored s'.
Proof.
  intros (o & E & K) V. destruct (ev_here _ _ V o E) as (l & E' & _). eexists. split; [exact E'|exact K].
Qed.
Lemma evolved_trans' s1 s2 s3 : anchored s1 -> evolved s1 s2 -> evolved s2 s3 -> evolved s1 s3.
Proof. intros (o & E & _) A B. eapply evolved_trans; eauto. Qed.

Lemma evolves_ret {A} (a : A) : evolves (Ret a).
Proof. intros s b s' _ [= <- <-]. now apply evolved_same. Qed.
Lemma evolves_bind {A B} (p : prog A) (k : A -> prog B) : evolves p -> (forall a, evolves (k a)) -> evolves (Bind p k).
Proof.
  intros P K s b s' An E. cbn [run] in E. destruct (run p s) as [a s1| | | |] eqn:R; try discriminate.
  pose proof (P s a s1 An R) as V. eapply evolved_trans'; [exact An|exact V|]. eapply K; [|exact E].
  eapply anchored_evolved; eauto.
Qed.
Lemma evolves_next : evolves Next.
Proof.
  intros s b s' _ E. cbn [run] in E. unfold next_token in E.
  destruct (get_next (s_tok s)); try discriminate; injection E as <- <-; now apply evolved_same.
Qed.
Lemma evolves_Cur : evolves Cur.
Proof. intros s b s' _ [= <- <-]. now apply evolved_same. Qed.
Lemma evolves_onheap {A} (f : nat -> heap -> hres A) :
  (forall c h a h', f c h = HOk a h' -> changed c h h') -> evolves (OnHeap f).
Proof.
  intros H s a s' _ E. cbn [run] in E. destruct (f (s_ctx s) (s_heap s)) as [x h'| | |] eqn:F; try discriminate.
  injection E as <- <-. apply evolved_changed. eapply H; eauto.
Qed.
Lemma evolves_failat {A} t : evolves (@FailAt A t).
Proof. intros s a s' _. cbn [run]. destruct (ctx_path _ _); discriminate. Qed.
Lemma evolves_fail {A} e : evolves (@Fail A e).
Proof. intros s a s' _. discriminate. Qed.
Lemma evolves_crash {A} : evolves (@Crash A).
Proof. intros s a s' _. discriminate. Qed.
Lemma evolves_nofuel {A} : evolves (@NoFuel A).
Proof. intros s a s' _. discriminate. Qed.
Lemma evolves_addpost cell n : evolves (AddPost cell n).
Proof. intros s a s' _ [= <- <-]. now apply evolved_same. Qed.
Lemma evolves_traced {A} (p : prog A) : evolves p -> evolves (Traced p).
Proof.
  intros P s a s' An E. cbn [run] in E. destruct (s_cur s); [|discriminate].
  destruct (run p s) as [x s1|? s1| | |] eqn:R; try discriminate; destruct (s_cur s1); try discriminate.
  injection E as <- <-. eapply P; eauto.
Qed.
Lemma evolves_postscope {A} (p : prog A) : evolves p -> evolves (PostScope p).
Proof.
  intros P s a s' An E. cbn [run] in E. destruct (run p (with_post [] s)) as [x s1|? s1| | |] eqn:R; try discriminate.
  injection E as <- <-.
  assert (V : evolved (with_post [] s) s1) by (eapply P; [exact An|exact R]).
  destruct V as [A1 A2 A3 A4 A5 A6 A7 A8 A9 A10 A11]. cbn in *. constructor; cbn; auto.
Qed.
Lemma run_post_refs c l : forall h h', run_post c l h = Some h' -> exists v, h' = with_refs v h.
Proof.
  induction l as [|[cell n] l IH]; intros h h'; cbn [run_post].
  - intros [= <-]. exists (h_refs h). now destruct h.
  - destruct (ctx_get h c n); [apply IH| |discriminate]. intros E. destruct (IH _ _ E) as (v & ->). now exists v.
Qed.
Lemma evolves_runpost : evolves RunPost.
Proof.
  intros s a s' _ E. cbn [run] in E. destruct (run_post _ _ _) as [h|] eqn:R; [|discriminate]. injection E as <- <-.
  destruct (run_post_refs _ _ _ _ R) as (v & ->). apply evolved_changed. constructor; auto.
  - exists []. cbn. now rewrite app_nil_r.
  - intros. apply same_maps_eq. reflexivity.
Qed.
Lemma evolves_attempt {B} (p : prog (option B)) : evolves p -> evolves (Attempt p).
Proof.
  intros P s a s' (o & Eo & K) E. cbn [run] in E. destruct (s_cur s) as [t|]; [|discriminate].
  unfold ctx_clone in E. rewrite Eo in E.
  assert (Eo' : match cx_kind o with KStack _ => mkCtx (KProgram []) (Some []) (cx_map o) | _ => o end = o)
    by (destruct (cx_kind o) eqn:Ko; auto; now destruct (K parent)).
  rewrite Eo' in E. clear Eo'.
  set (h1 := with_ctxs (h_ctxs (s_heap s) ++ [o]) (s_heap s)) in *.
  assert (E1 : nth_error (h_ctxs h1) (s_ctx s) = Some o).
  { cbn. rewrite nth_error_app1; [exact Eo|]. eapply nth_lt; eauto. }
  assert (V1 : evolved s (with_heap h1 s)).
  { constructor; cbn; auto.
    - exists []. now rewrite app_nil_r.
    - intros. now apply same_maps_eq.
    - intros c o' E' _. rewrite nth_error_app1; [exact E'|]. eapply nth_lt; eauto.
    - rewrite app_length. lia.
    - intros o' E'. rewrite Eo in E'. injection E' as <-. exists []. rewrite nth_error_app1 by (eapply nth_lt; eauto).
      cbn [chain fold_left]. rewrite ctx_eta. split; [exact Eo|constructor].
    - intros c o' E'. exists o'. rewrite nth_error_app1 by (eapply nth_lt; eauto). auto. }
  assert (An1 : anchored (with_heap h1 s)) by (exists o; auto).
  destruct (run p (with_heap h1 s)) as [[b|] s2| | | |] eqn:R; try discriminate; injection E as <- <-; pose proof (P _ _ _ An1 R) as V2.
  - eapply evolved_trans; eauto.
  - destruct V2 as [A1 A2 A3 A4 A5 A6 A7 A8 A9 A10 A11]. cbn [with_heap s_heap s_ctx] in *.
    assert (Ec : nth_error (h_ctxs (s_heap s2)) (length (h_ctxs (s_heap s))) = Some o).
    { apply A7; [cbn; apply nth_app_new|]. apply nth_lt in Eo. lia. }
    constructor; cbn [s_heap s_ctx]; auto.
    + intros o' E'. rewrite Eo in E'. injection E' as <-. exact (A5 o E1).
    + intros c o' E' N. apply A7; [|exact N]. cbn. rewrite nth_error_app1; [exact E'|]. eapply nth_lt; eauto.
    + apply nth_lt in Ec. lia.
    + intros o' E'. rewrite Eo in E'. injection E' as <-. exists []. rewrite Ec. split; [f_equal; symmetry; apply ctx_eta|constructor].
    + intros c o' E'. apply A11. cbn. rewrite nth_error_app1; [exact E'|]. eapply nth_lt; eauto.
Qed.
(** A scope that was left: either everything is as before, or the parser is still in it. *)
Lemma evolved_scoped s o h1 h2 s2 : nth_error (h_ctxs (s_heap s)) (s_ctx s) = Some o ->
  ctx_stack (s_heap s) (s_ctx s) = Some (h1, cx_map o) -> evolved (with_heap h1 s) s2 ->
  h2 = ctx_restore (s_heap s2) (s_ctx s) (cx_map o) ->
  evolved s (with_heap h2 s2) /\
  same_maps None (s_heap s) h2 /\
  ((s_ctx s2 = s_ctx s /\ nth_error (h_ctxs h2) (s_ctx s2) = Some o) \/
   nth_error (h_ctxs h2) (s_ctx s2) = nth_error (h_ctxs (s_heap s2)) (s_ctx s2)).
Proof.
  intros Eo ST V ->. unfold ctx_stack, new_chained, new_map in ST. rewrite Eo in ST. injection ST as ST.
  set (k := length (h_maps (s_heap s))) in *.
  unfold ctx_put_map in ST. cbn [h_ctxs with_maps] in ST. rewrite Eo in ST. subst h1.
  destruct V as [A1 A2 A3 A4 A5 A6 A7 A8 A9 A10 A11]. cbn [with_heap s_heap s_ctx h_uses h_units h_progs h_decls h_maps h_ctxs with_ctxs with_maps] in *.
  assert (Lc : s_ctx s < length (h_ctxs (s_heap s))) by (eapply nth_lt; eauto).
  set (o1 := mkCtx (cx_kind o) (cx_path o) (DChained (cx_map o) k)) in *.
  assert (E1 : nth_error (set_nth (s_ctx s) o1 (h_ctxs (s_heap s))) (s_ctx s) = Some o1) by (now apply nth_set_nth_eq).
  assert (E1' : forall c, c <> s_ctx s -> nth_error (set_nth (s_ctx s) o1 (h_ctxs (s_heap s))) c = nth_error (h_ctxs (s_heap s)) c)
    by (intros c N; apply nth_set_nth_neq; congruence).
  specialize (A5 o1 E1). specialize (A10 o1 E1) as (l & E2 & F2). cbn [o1 cx_kind cx_path cx_map] in E2.
  change (target (cx_map o1)) with (Some k) in A5.
  assert (SM : same_maps None (s_heap s) (s_heap s2)).
  { intros a m E. destruct (A5 a m) as (m' & E' & S' & K').
    - cbn [h_maps with_ctxs with_maps]. rewrite nth_error_app1; [exact E|]. eapply nth_lt; eauto.
    - exists m'. split; [exact E'|]. split; [intros _; apply S'|exact K']. intros E3. injection E3 as E3. apply nth_lt in E. unfold k in E3. lia. }
  rewrite app_length in A6. cbn [length] in A6.
  assert (set_len : length (set_nth (s_ctx s) o1 (h_ctxs (s_heap s))) = length (h_ctxs (s_heap s))).
  { apply set_nth_length. }
  rewrite set_len in A8, A9.
  unfold ctx_restore.
  split; [|split].
  - constructor; cbn [with_heap s_heap s_ctx].
    + unfold ctx_put_map. destruct (nth_error (h_ctxs (s_heap s2)) (s_ctx s)); exact A1.
    + unfold ctx_put_map. destruct (nth_error (h_ctxs (s_heap s2)) (s_ctx s)); exact A2.
    + unfold ctx_put_map. destruct (nth_error (h_ctxs (s_heap s2)) (s_ctx s)); exact A3.
    + rewrite ctx_put_map_decls. exact A4.
    + intros o' _. intros a m E. rewrite ctx_put_map_maps. destruct (SM a m E) as (m' & E' & S' & K').
      exists m'. split; [exact E'|]. split; [intros _; now apply S'|exact K'].
    + rewrite ctx_put_map_maps. fold k. lia.
    + intros c o' E' N. rewrite ctx_put_map_other by congruence. apply A7; [|exact N]. rewrite E1' by exact N. exact E'.
    + rewrite ctx_put_map_len. exact A8.
    + exact A9.
    + intros o' E'. rewrite Eo in E'. injection E' as <-. destruct (Nat.eq_dec (s_ctx s2) (s_ctx s)) as [Ec|Nc].
      * exists []. rewrite Ec in *. erewrite ctx_put_map_ctx by exact E2. cbn [cx_kind cx_path]. split; [reflexivity|constructor].
      * exists (k :: l). rewrite ctx_put_map_other by congruence. split; [exact E2|]. constructor; [unfold k; lia|].
        eapply Forall_impl; [|exact F2]. cbn. intros a. rewrite app_length. cbn. fold k. lia.
    + intros c o' E'. destruct (Nat.eq_dec c (s_ctx s)) as [->|Nc].
      * rewrite Eo in E'. injection E' as <-. destruct (A11 _ _ E1) as (o2 & X & Kd & Pt). rewrite (ctx_put_map_ctx _ _ _ _ X).
        eexists. split; [reflexivity|]. split; [exact Kd|exact Pt].
      * rewrite ctx_put_map_other by congruence. apply A11. rewrite E1' by exact Nc. exact E'.
  - intros a m E. rewrite ctx_put_map_maps. exact (SM a m E).
  - destruct (Nat.eq_dec (s_ctx s2) (s_ctx s)) as [Ec|Nc].
    + left. split; [exact Ec|]. rewrite Ec in *. erewrite ctx_put_map_ctx by exact E2. cbn [cx_kind cx_path]. f_equal. apply ctx_eta.
    + right. apply ctx_put_map_other. congruence.
Qed.
Lemma evolves_scoped {A} (p : prog A) : evolves p -> evolves (Scoped p).
Proof.
  intros P s a s' (o & Eo & K) E. cbn [run] in E. destruct (ctx_stack (s_heap s) (s_ctx s)) as [[h1 bk]|] eqn:ST; [|discriminate].
  assert (bk = cx_map o) as ->.
  { unfold ctx_stack, new_chained, new_map in ST. rewrite Eo in ST. congruence. }
  destruct (run p (with_heap h1 s)) as [x s2|? s2| | |] eqn:R; try discriminate. injection E as <- <-.
  assert (V : evolved (with_heap h1 s) s2).
  { eapply P; [|exact R]. unfold ctx_stack, new_chained, new_map in ST. rewrite Eo in ST. injection ST as <-.
    exists (mkCtx (cx_kind o) (cx_path o) (DChained (cx_map o) (length (h_maps (s_heap s))))). split; [|exact K].
    cbn [with_heap s_heap s_ctx]. now erewrite ctx_put_map_ctx by exact Eo. }
  exact (proj1 (evolved_scoped s o h1 _ s2 Eo ST V eq_refl)).
Qed.

(** ** Combinations *)
Lemma evolves_loop {S A} (body : S -> prog (S + A)) : (forall x, evolves (body x)) -> forall fuel x, evolves (loop fuel body x).
Proof.
  intros B. induction fuel as [|f IH]; intros x; cbn [loop]; [apply evolves_nofuel|].
  apply evolves_bind; [apply B|]. intros [y|y]; [apply IH|apply evolves_ret].
Qed.
Lemma evolves_validate t p : evolves (validate t p).
Proof. unfold validate. destruct t as [t|]; [|apply evolves_fail]. destruct (p t); [apply evolves_ret|apply evolves_failat]. Qed.
Lemma evolves_cur : evolves cur.
Proof. apply evolves_bind; [apply evolves_Cur|]. intros [t|]; [apply evolves_ret|apply evolves_crash]. Qed.
Lemma evolves_is p : evolves (is p).
Proof. apply evolves_bind; [apply evolves_cur|]. intros t. apply evolves_ret. Qed.
Lemma evolves_nexttok : evolves next.
Proof. apply evolves_bind; [apply evolves_next|]. intros [t|]; [apply evolves_ret|apply evolves_crash]. Qed.
Lemma evolves_expect p : evolves (expect p).
Proof. apply evolves_bind; [apply evolves_Cur|]. intros t. apply evolves_validate. Qed.
Lemma evolves_expect_next p : evolves (expect_next p).
Proof. apply evolves_bind; [apply evolves_next|]. intros t. apply evolves_validate. Qed.
Lemma evolves_expect_or_fail p : evolves (expect_or_fail p).
Proof. apply evolves_bind; [apply evolves_cur|]. intros t. destruct (p t); [apply evolves_ret|apply evolves_failat]. Qed.
Lemma evolves_until {S} fuel t sep (fn : S -> prog (option S)) x : (forall x, evolves (fn x)) -> evolves (until fuel t sep fn x).
Proof.
  intros F. apply evolves_loop. intros y. apply evolves_bind; [apply F|]. intros [z|]; [|apply evolves_ret].
  apply evolves_bind; [apply evolves_Cur|]. intros [tk|]; [|apply evolves_fail]. destruct (t tk); [apply evolves_ret|].
  destruct sep; [|apply evolves_ret]. apply evolves_bind; [apply evolves_validate|]. intros _.
  apply evolves_bind; [apply evolves_next|]. intros _. apply evolves_ret.
Qed.
Lemma evolves_until_list {A} fuel t sep (p : prog A) : evolves p -> evolves (until_list fuel t sep p).
Proof.
  intros P. apply evolves_until. intros l. apply evolves_bind; [exact P|]. intros a. apply evolves_ret.
Qed.
Lemma evolves_pure {A} (f : nat -> heap -> hres A) : (forall c h a h', f c h = HOk a h' -> h' = h) -> evolves (OnHeap f).
Proof. intros H. apply evolves_onheap. intros c h a h' E. apply H in E as ->. apply changed_refl. Qed.
Lemma evolves_get n : evolves (get n).
Proof. apply evolves_pure. intros c h a h'. destruct (ctx_get h c n); congruence. Qed.
Lemma evolves_node d : evolves (node_of d).
Proof. apply evolves_pure. intros c h a h'. destruct (deref h d); congruence. Qed.
Lemma evolves_get_node n : evolves (get_node n).
Proof.
  apply evolves_bind; [apply evolves_get|]. intros [d|]; [|apply evolves_ret].
  apply evolves_bind; [apply evolves_node|]. intros x. apply evolves_ret.
Qed.
Lemma impl_set_keeps a ds : forall h h', impl_set h a ds = SOk h' -> same_maps (Some a) h h' /\ length (h_maps h') = length (h_maps h).
Proof.
  induction ds as [|[i d] ds IH]; intros h h'; cbn [impl_set].
  - intros [= <-]. split; [apply same_maps_refl|reflexivity].
  - destruct (nth_error (h_maps h) a) as [m|] eqn:E; [|discriminate].
    destruct (mget (regularize (i_name i)) m) as [[old|]|] eqn:G; try discriminate.
    { destruct (i_loc i); [|discriminate]. destruct (option_map _ _) as [[?|]|]; discriminate. }
    intros S. apply IH in S as [S L]. cbn [h_maps with_maps] in L.
    pose proof (nth_lt _ _ _ E) as La.
    assert (set_len : forall v, length (set_nth a v (h_maps h)) = length (h_maps h)).
    { intros v. apply set_nth_length. }
    split; [|now rewrite L, set_len].
    eapply same_maps_trans; [|exact S|auto]. intros b mb Eb. cbn [h_maps with_maps].
    destruct (Nat.eq_dec b a) as [->|N].
    + rewrite nth_set_nth_eq by exact La. eexists. split; [reflexivity|]. rewrite E in Eb. injection Eb as <-.
      split; [congruence|apply keeps_put].
    + rewrite nth_set_nth_neq by congruence. exists mb. split; [exact Eb|]. split; [auto|apply keeps_refl].
Qed.
Lemma evolves_set ds : evolves (set ds).
Proof.
  apply evolves_onheap. intros c h a h'. destruct (ctx_set h c ds) as [h1|h1 i|] eqn:E; try discriminate. intros [= <- <-].
  unfold ctx_set in E. destruct (nth_error (h_ctxs h) c) as [o|] eqn:Eo; [|discriminate].
  unfold map_set, alloc_decls in E. set (h0 := with_decls _ h) in E.
  set (l := combine _ _) in E.
  pose proof (dset_target _ _ _ _ (or_introl E)) as On.
  assert (same_maps (target (cx_map o)) h0 h1 /\ length (h_maps h) <= length (h_maps h1)) as [SM Ln].
  { destruct (target (cx_map o)) as [b|] eqn:T.
    - rewrite (dset_impl _ _ b _ T) in E. apply impl_set_keeps in E as [S L]. split; [exact S|]. rewrite L. reflexivity.
    - subst h1. split; [apply same_maps_refl|reflexivity]. }
  assert (X : h_decls h1 = h_decls h0 /\ h_uses h1 = h_uses h /\ h_units h1 = h_units h /\ h_progs h1 = h_progs h /\ h_ctxs h1 = h_ctxs h).
  { destruct (target (cx_map o)) as [b|]; [destruct On; auto|subst h1; auto]. }
  destruct X as (X1 & X2 & X3 & X4 & X5). constructor; auto.
  - rewrite X1. cbn. eauto.
  - intros o' E'. rewrite Eo in E'. injection E' as <-. exact SM.
Qed.
Lemma evolves_new_type_id u i d : evolves (new_type_id u i d).
Proof.
  apply evolves_onheap. intros c h a h' [= <- <-]. constructor; auto; [exists []; cbn; now rewrite app_nil_r|].
  intros. now apply same_maps_eq.
Qed.

End WithUnicode.
