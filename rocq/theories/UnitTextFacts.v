(** The rules for units. *)
From Coq Require Import String List Arith NArith Bool Lia.
From Verif Require Import ListUtil Runes UnicodeFacts Token Tokenizer LexSpec LexShape LexFacts LexMain Ext ExtMain Ast Heap Classes MapSpec MapFacts MapMain Prog Parser ParseSpec RunFacts
  ExprSpec WpFacts ExprFacts StmtSpec GrowFacts StmtFacts EvolveFacts EvolveParse Units UnitSpec UsesMain DeclSpec ScopeFacts DeclFacts TypeFacts SectionFacts DeclMain TermUnit UnitTextSpec.
Import ListNotations.
Local Open Scope list_scope.

Section WithUnicode.
Context {U : Unicode} {UOK : UnicodeOk U}.
Local Open Scope prog_scope.
Notation words := (list (ttype * gostring)).
Context (text : list rune) (st : style).
Notation in_scope := (in_scope text).

Ltac fl := cbv beta iota; repeat (match goal with
  | |- wp (Bind (Ret _) _) _ _ => apply wp_ret_bind
  | |- wp (Bind (Bind _ _) _) _ _ => apply wp_assoc
  end; cbv beta iota).
Ltac wd := let t := fresh "t" in let W := fresh "W" in intros t W; cbn [p_some existsb]; rewrite ?sym_w, ?kw_w, ?type_w, ?W; try reflexivity.

(** ** Other changes of the heap *)
Definition better (h h' : heap) : Prop := forall x mp n d, namespace_map h x mp -> dget h mp n = LFound d ->
  exists mp' d', namespace_map h' x mp' /\ dget h' mp' n = LFound d'.
Lemma in_scope_ns sc s s' ws ws' : in_scope sc s ws -> s_ctx s' = s_ctx s -> h_ctxs (s_heap s') = h_ctxs (s_heap s) ->
  h_maps (s_heap s') = h_maps (s_heap s) -> h_decls (s_heap s') = h_decls (s_heap s) -> better (s_heap s) (s_heap s') ->
  stands text s' ws' -> in_scope sc s' ws'.
Proof.
  intros [A1 A2 A3 A4 A5 A6 A7 A8 A9 A10 A11] Ec Ex Em Ed Be St. unfold senv_of in *.
  destruct A1 as (o & Eo & K). assert (Eo' : nth_error (h_ctxs (s_heap s')) (s_ctx s') = Some o) by (now rewrite Ec, Ex).
  assert (G : forall n, ctx_get (s_heap s') (s_ctx s') n = ctx_get (s_heap s) (s_ctx s) n).
  { intros n. rewrite (ctx_get_plain _ _ o _ Eo' K), (ctx_get_plain _ _ o _ Eo K). now apply dget_same_maps. }
  assert (Dr : forall e, deref (s_heap s') e = deref (s_heap s) e) by (intros [e|e]; cbn; rewrite ?Ed; reflexivity).
  assert (Rs : forall n e x, resolves (s_heap s) (s_ctx s) n e x -> resolves (s_heap s') (s_ctx s') n e x).
  { intros n e x (E & y & D & Y). unfold resolves. rewrite G, Dr. eauto. }
  constructor; unfold senv_of.
  - exists o. auto.
  - intros n. rewrite G. apply A2.
  - intros n P. apply A3 in P. cbn in *. destruct P as [E|(e & x & E & X)]; [left; now rewrite G|right; exists e, x; auto].
  - intros n T. apply A4 in T as (d & t & E). exists d, t. auto.
  - intros n m M. destruct (A5 n m M) as (e & e' & x & mp & E & NM & Gm). destruct (Be x mp m e' NM Gm) as (mp' & d' & NM' & G').
    exists e, d', x, mp'. auto.
  - intros n L. apply A6 in L as (d & E). exists d. auto.
  - intros n P. apply A7 in P. cbn in *. destruct P as [E|(e & x & E & X)]; [left; now rewrite G|right; exists e, x; auto].
  - intros n Fr. apply A8 in Fr as (o2 & a & m & E & T & M & Gm). rewrite Eo in E. injection E as <-. exists o, a, m. rewrite Em. auto.
  - intros n Ud. rewrite G. auto.
  - intros n O. apply A10 in O. cbn in *. destruct O as [O|(NB & d & t' & E & O)]; [now left|right]. split; [exact NB|]. exists d, t'. auto.
  - exact St.
Qed.
Lemma better_more h l : better h (with_uses (h_uses h ++ l) h).
Proof.
  intros x mp n d NM G. exists mp, d. split; [|rewrite <- G; now apply dget_same_maps]. destruct x; cbn in *; auto.
  destruct NM as (it & u & uo & E & H). exists it, u, uo. rewrite nth_error_app1 by (eapply nth_lt; eauto). auto.
Qed.
Lemma better_units h h' : h_uses h' = h_uses h -> h_progs h' = h_progs h -> h_maps h' = h_maps h ->
  (forall u o, nth_error (h_units h) u = Some o -> exists o', nth_error (h_units h') u = Some o' /\ (un_map o = DNil \/ un_map o' = un_map o)) ->
  better h h'.
Proof.
  intros Eu Ep Em H x mp n d NM G.
  assert (K : forall u o, nth_error (h_units h) u = Some o -> un_map o = mp -> exists o', nth_error (h_units h') u = Some o' /\ un_map o' = mp).
  { intros u o E M. destruct (H u o E) as (o' & E' & [X|X]); [rewrite <- M, X in G; discriminate G|]. exists o'. split; [exact E'|congruence]. }
  exists mp, d. split; [|rewrite <- G; now apply dget_same_maps]. destruct x; cbn in *; try contradiction.
  - destruct NM as (it & u & uo & E & E1 & E2 & E3). destruct (K u uo E2 E3) as (o' & E' & M'). exists it, u, o'. rewrite Eu. auto.
  - destruct NM as (uo & E2 & E3). destruct (K _ uo E2 E3) as (o' & E' & M'). eauto.
  - rewrite Ep. exact NM.
Qed.

(** ** The name of a unit *)
Lemma in_scope_name sc s ws i nd h' : nd <> NLabel -> in_scope sc s ws -> set_facts [mkDecl i nd] s h' ->
  in_scope (declare_unit (i_name i) sc) (with_heap h' s) ws.
Proof.
  intros Nl I [F1 F2 F3 F4 F5 F6 F7 F8 F9 F10 F11 F12]. cbn [map decl_name d_ident] in *.
  set (h := s_heap s) in *. set (c := s_ctx s) in *.
  assert (Do : forall e x, deref h e = Some x -> deref h' e = Some x).
  { intros [e|e] x; cbn; [auto|]. rewrite F5. intros E. rewrite nth_error_app1; [exact E|]. eapply nth_lt; eauto. }
  assert (Dec : forall n, same_name n (i_name i) \/ ~ same_name n (i_name i)).
  { intros n. unfold same_name. destruct (list_eq_dec N.eq_dec (to_lower n) (to_lower (i_name i))); auto. }
  assert (Get : forall n, ~ same_name n (i_name i) -> ctx_get h' c n = ctx_get h c n).
  { intros n N. apply F8. now rewrite key_in. }
  assert (Rs : forall n e x, ~ same_name n (i_name i) -> resolves h c n e x -> resolves h' c n e x).
  { intros n e x N (E & y & D & Y). unfold resolves. rewrite (Get n N). eauto. }
  assert (New : forall n, same_name n (i_name i) -> exists d, resolves h' c n d nd).
  { intros n N. destruct (F9 (mkDecl i nd) n) as (d & G & D); [now left|exact N|]. exists d. split; [exact G|]. eauto. }
  destruct I as [A1 A2 A3 A4 A5 A6 A7 A8 A9 A10 A11]. fold h c in A2, A8, A9, A10. unfold senv_of in *. fold h c in A3, A4, A5, A6, A7.
  constructor; cbn [declare_unit known free undeclared ordinal names a_label no_label plain_name type_name member with_heap s_heap s_ctx]; fold c.
  - destruct A1 as (o & E & K). exists o. split; [|exact K]. cbn. rewrite F1. exact E.
  - intros n. destruct (Dec n) as [N|N]; [|rewrite (Get n N); apply A2]. destruct (New n N) as (d & G & _). congruence.
  - intros n [P N]. apply A3 in P. cbn in *. destruct P as [E|(e & x & E & X)]; [left; now rewrite Get|right; exists e, x; auto].
  - intros n [T N]. apply A4 in T as (d & t' & G). exists d, t'. auto.
  - intros n m (d & d' & M & N). destruct (A5 n m (ex_intro _ d (ex_intro _ d' M))) as (e & e' & x & mp & E & NM & Gm).
    assert (NM' : namespace_map h' x mp) by (destruct x; cbn in *; rewrite ?F2, ?F3, ?F4; exact NM).
    destruct (proj1 (found_stays h h' mp m e' (fun a d => F10 a m d) (fun a => F11 a m)) Gm) as (d2 & G2).
    exists e, d2, x, mp. auto.
  - intros n [L N]. apply A6 in L as (d & E). exists d. auto.
  - intros n L. cbn in *. destruct (Dec n) as [N|N].
    + right. destruct (New n N) as (d & G). exists d, nd. split; [exact G|exact Nl].
    + destruct L as [L|L]; [|contradiction]. apply A7 in L. destruct L as [E|(e & x & E & X)]; [left; now rewrite Get|right; exists e, x; auto].
  - intros n [Fr N]. apply F12; [now rewrite key_in|now apply A8].
  - intros n [Fr N]. rewrite Get by exact N. now apply A9.
  - intros n [O N]. apply A10 in O. cbn in *. destruct O as [O|(NB & d & t' & E & O)]; [now left|right]. split; [exact NB|]. exists d, t'. auto.
  - now apply stands_heap.
Qed.
Lemma in_scope_unit sc s ws i a h' : in_scope sc s ws -> set_facts [mkDecl i (NUses a)] s h' ->
  in_scope (declare_unit (i_name i) sc) (with_heap h' s) ws.
Proof. apply in_scope_name. discriminate. Qed.

(** ** Steps that may add items of uses clauses *)
Definition ran (s s' : pst) : Prop :=
  exists l, evolved (with_heap (with_uses (h_uses (s_heap s) ++ l) (s_heap s)) s) s'.
Lemma evolved_ran s s' : evolved s s' -> ran s s'.
Proof. intros V. exists []. rewrite app_nil_r. now destruct s as [? ? ? ? []]. Qed.
Lemma place_evolved s s' : same_but_place s s' -> evolved s s'.
Proof. intros (C & P & H). apply evolved_same; congruence. Qed.
Lemma evolved_uses v s s' : evolved s s' -> evolved (with_heap (with_uses v (s_heap s)) s) (with_heap (with_uses v (s_heap s')) s').
Proof. intros [A1 A2 A3 A4 A5 A6 A7 A8 A9 A10 A11]. constructor; cbn in *; auto. Qed.
Lemma ran_trans s1 s2 s3 : anchored s1 -> ran s1 s2 -> ran s2 s3 -> ran s1 s3.
Proof.
  intros An (l1 & V1) (l2 & V2). exists (l1 ++ l2). eapply evolved_trans'; [exact An| |exact V2].
  pose proof (ev_uses _ _ V1) as E. cbn in E. rewrite E, <- app_assoc.
  apply (evolved_uses (h_uses (s_heap s1) ++ l1 ++ l2)) in V1. exact V1.
Qed.
Lemma ran_units s s' : ran s s' -> h_units (s_heap s') = h_units (s_heap s).
Proof. intros (l & V). apply (ev_units _ _ V). Qed.
Lemma ran_uses s s' : ran s s' -> exists l, h_uses (s_heap s') = h_uses (s_heap s) ++ l.
Proof. intros (l & V). exists l. apply (ev_uses _ _ V). Qed.
Lemma ran_anchored s s' : anchored s -> ran s s' -> anchored s'.
Proof. intros An (l & V). eapply anchored_evolved; [|exact V]. exact An. Qed.
Lemma say_ran s s' us l : ran s s' -> uses_say (s_heap s) us l -> uses_say (s_heap s') us l.
Proof.
  intros R. destruct (ran_uses _ _ R) as (more & E). unfold uses_say. rewrite E.
  induction 1 as [|a i us l (o & Eo & Ho) H IH]; constructor; [|exact IH].
  exists o. split; [|exact Ho]. rewrite nth_error_app1; [exact Eo|]. eapply nth_lt; eauto.
Qed.
Lemma wp_ev {A B} (p : prog A) (k : A -> prog B) s Q : evolves p -> anchored s ->
  wp p s (fun a s1 => evolved s s1 -> wp (k a) s1 Q) -> wp (Bind p k) s Q.
Proof.
  intros Ev An H. apply wp_elim in H as (a & s1 & R & H). apply wp_bind. eapply wp_run; [exact R|]. apply H. now apply Ev in R.
Qed.
Section Rules.
Context {B : Type} (sc : scope) (s : pst) (Q : B -> pst -> Prop).
Lemma k_next (k : option token -> prog B) w ws : in_scope sc s (w :: ws) -> ws <> [] ->
  (forall t s1, in_scope sc s1 ws -> evolved s s1 -> wp (k t) s1 Q) -> wp (Bind Next k) s Q.
Proof.
  intros I NE K. apply wp_ev; [apply evolves_next|apply context_anchored, I|]. apply wp_last.
  eapply d_next; [exact I|exact NE|]. intros t s1 I1. apply wp_ret. intros V. now apply K.
Qed.
Lemma k_next_tok (k : token -> prog B) w w2 ws : in_scope sc s (w :: w2 :: ws) ->
  (forall t s1, word_of t = w2 -> in_scope sc s1 (w2 :: ws) -> evolved s s1 -> wp (k t) s1 Q) -> wp (Bind next k) s Q.
Proof.
  intros I K. apply wp_ev; [apply evolves_nexttok|apply context_anchored, I|]. apply wp_last.
  eapply d_next_tok; [exact I|]. intros t s1 W I1. apply wp_ret. intros V. now apply K.
Qed.
Lemma k_expect_next pred (k : token -> prog B) w w2 ws : in_scope sc s (w :: w2 :: ws) -> (forall t, word_of t = w2 -> pred t = true) ->
  (forall t s1, word_of t = w2 -> in_scope sc s1 (w2 :: ws) -> evolved s s1 -> wp (k t) s1 Q) -> wp (Bind (expect_next pred) k) s Q.
Proof.
  intros I E K. apply wp_ev; [apply evolves_expect_next|apply context_anchored, I|]. apply wp_last.
  eapply d_expect_next; [exact I|exact E|]. intros t s1 W I1. apply wp_ret. intros V. now apply K.
Qed.
End Rules.

(** ** Uses clauses *)
Lemma declare_units_cons n ns sc : declare_units (n :: ns) sc = declare_units ns (declare_unit n sc).
Proof. reflexivity. Qed.
(** Each name of a clause is the item. *)
Definition names_items (h : heap) (c : nat) (us : list nat) (l : uses_source) : Prop :=
  Forall2 (fun a i => forall x, same_name x (fst i) -> exists d, resolves h c x d (NUses a)) us l.
Lemma set_uses_scope us l : forall sc s ws, in_scope sc s ws -> uses_say (s_heap s) us l ->
  distinct_names (map fst l) -> Forall (free sc) (map fst l) ->
  exists h', run (set_uses us) s = OOk tt (with_heap h' s) /\ changed (s_ctx s) (s_heap s) h' /\
    in_scope (declare_units (map fst l) sc) (with_heap h' s) ws /\
    (forall n e x, ~ In (to_lower n) (map to_lower (map fst l)) -> resolves (s_heap s) (s_ctx s) n e x -> resolves h' (s_ctx s) n e x) /\
    names_items h' (s_ctx s) us l.
Proof.
  revert l. induction us as [|a us IH]; intros l sc s ws I Sy D V.
  - inversion Sy; subst. exists (s_heap s). cbn [set_uses run map declare_units fold_left]. rewrite with_same_heap.
    split; [reflexivity|]. split; [apply changed_refl|]. split; [exact I|]. split; [auto|constructor].
  - inversion Sy as [|? i ? l' (o & Eo & N & P & Un & Lc) Sy']; subst. cbn [map] in V, D |- *.
    apply Forall_cons_iff in V as [Vi V]. unfold distinct_names in D. cbn [map] in D. apply NoDup_cons_iff in D as [Ni D].
    destruct (set_core s [mkDecl (u_ident o) (NUses a)]) as (h1 & R & F).
    + apply I.
    + constructor; [|constructor]. apply (sc_free _ _ _ _ I). unfold decl_name. cbn [d_ident]. now rewrite N.
    + discriminate.
    + cbn. constructor; [intros []|constructor].
    + pose proof (in_scope_unit _ _ _ _ _ _ I F) as I1. rewrite N in I1.
      destruct (IH l' _ _ _ I1) as (h' & R2 & Ch & I2 & Kp & Nm).
      { unfold uses_say in *. cbn [s_heap with_heap]. now rewrite (sf_uses _ _ _ F). }
      { exact D. }
      { rewrite Forall_forall in V |- *. intros n J. cbn [declare_unit free]. split; [now apply V|]. intros S. apply Ni. rewrite <- S. now apply in_map. }
      assert (Dr : forall e x, deref (s_heap s) e = Some x -> deref h1 e = Some x).
      { intros [e|e] x; cbn; [auto|]. rewrite (sf_decls _ _ _ F). intros E. rewrite nth_error_app1; [exact E|]. eapply nth_lt; eauto. }
      exists h'. split; [|split; [|split; [exact I2|split]]].
      * cbn [set_uses]. rewrite run_bind. cbn [run]. rewrite Eo. unfold set in R. cbn [run] in R.
        destruct (ctx_set (s_heap s) (s_ctx s) [mkDecl (u_ident o) (NUses a)]) as [h2|h2 e|]; try discriminate R.
        assert (h2 = h1) as -> by (apply (f_equal (fun o => match o with OOk _ s => Some (s_heap s) | _ => None end)) in R; cbn in R; congruence).
        exact R2.
      * assert (C1 : evolved s (with_heap h1 s)) by (eapply evolves_set; [apply context_anchored, I|exact R]).
        assert (C2 : evolved (with_heap h1 s) (with_heap h' (with_heap h1 s))) by (now apply evolved_changed).
        pose proof (sf_ctxs _ _ _ F) as Ec1. pose proof (ch_ctxs _ _ _ Ch) as Ec2. cbn [with_heap s_heap s_ctx] in Ec2.
        destruct (evolved_trans' _ _ _ (context_anchored _ (sc_context _ _ _ _ I)) C1 C2) as [B1 B2 B3 B4 B5 B6 B7 B8 B9 B10 B11].
        constructor; auto. cbn [with_heap s_heap] in *. congruence.
      * intros n e x Nn (G & y & Dy & Y). cbn [In] in Nn. apply (Kp n e x); [intros J; apply Nn; now right|]. cbn [with_heap s_heap s_ctx].
        split; [|exists y; split; [now apply Dr|exact Y]]. rewrite (sf_get _ _ _ F); [exact G|]. cbn [map]. rewrite key_in. unfold decl_name. cbn [d_ident].
        rewrite N. intros E. apply Nn. left. now rewrite E.
      * constructor; [|exact Nm]. intros x E. destruct (sf_new _ _ _ F (mkDecl (u_ident o) (NUses a)) x) as (d & G & Dd); [now left|unfold decl_name; cbn [d_ident]; now rewrite N|].
        exists d. apply (Kp x d (NUses a)); [unfold same_name in E; rewrite E; exact Ni|]. split; [exact G|]. eauto.
Qed.
Lemma ran_more s s' : more_uses s s' -> ran s s'.
Proof. intros (C & P & l & E). exists l. apply evolved_same; [exact E|exact C]. Qed.
Lemma d_uses_clause {B} m l (k : list nat -> prog B) sc s Q w rest : l <> [] -> distinct_names (map fst l) -> Forall (free sc) (map fst l) ->
  length l <= S m -> in_scope sc s (write_uses l ++ w :: rest) ->
  (forall us s1, uses_say (s_heap s1) us l -> NoDup us -> ran s s1 -> (forall a, In a us -> length (h_uses (s_heap s)) <= a) ->
     in_scope (declare_units (map fst l) sc) s1 (w :: rest) -> names_items (s_heap s1) (s_ctx s1) us l -> wp (k us) s1 Q) ->
  wp (Bind (parse_uses_next (recs_at m)) k) s Q.
Proof.
  intros NE D V L I K. unfold write_uses in I. cbn [app] in I. rewrite <- app_assoc in I. cbn [app] in I.
  pose proof (context_anchored _ (sc_context _ _ _ _ I)) as An.
  unfold parse_uses_next, parse_uses_clause. fl. eapply d_expect; [exact I|wd|]. intros t0 _. fl.
  eapply k_next; [exact I|apply app_nonempty; discriminate|]. intros t s1 I1 V1. fl. unfold until_list.
  apply wp_bind. eapply wp_conseq.
  { apply (uses_loop text (w :: rest) l [] (r_fuel (recs_at m)) s1 NE); [rewrite fuel_level; lia|apply I1]. }
  intros r s2 ((us & -> & Su & Nu & Lu) & St2 & M2). cbn [app].
  assert (I2 : in_scope sc s2 (wsym ";" :: w :: rest)).
  { destruct M2 as (C & _ & more & E). eapply in_scope_ns; [exact I1|exact C| | | | |exact St2]; rewrite E; try reflexivity. apply better_more. }
  destruct (set_uses_scope us l sc s2 _ I2 Su D V) as (h' & R & Ch & I3 & _ & Nm).
  fl. apply wp_bind. eapply wp_run; [exact R|]. fl. apply wp_bind. eapply wp_next; [apply I3|discriminate|]. intros t2 s4 _ _ St4 SB. fl.
  pose proof SB as (Sc4 & _ & Sh4). pose proof (place_evolved _ _ SB) as V4.
  assert (I4 : in_scope (declare_units (map fst l) sc) s4 (w :: rest)) by (eapply in_scope_calm; [exact I3|now apply quiet_calm, quiet_place|exact St4]).
  assert (Rn : ran s s4).
  { eapply ran_trans; [exact An|apply evolved_ran; exact V1|]. eapply ran_trans; [apply context_anchored, I1|apply ran_more; exact M2|].
    apply evolved_ran. eapply evolved_trans'; [apply context_anchored, I2|apply evolved_changed; exact Ch|exact V4]. }
  apply K; [|exact Nu|exact Rn| |exact I4|].
  - unfold uses_say in *. rewrite (ev_uses _ _ V4). cbn [with_heap s_heap]. now rewrite (ch_uses _ _ _ Ch).
  - intros a J. rewrite <- (ev_uses _ _ V1). now apply Lu.
  - rewrite <- Sc4, <- Sh4. exact Nm.
Qed.

(** ** The interface section *)
Section Level.
Context (m : nat).
Notation R := (recs_at m).
Ltac by_name W := rewrite type_w, W; change (ttype_eqb (fst (wkey _)) EOF) with false; cbv iota;
  rewrite type_w, W; change (ttype_eqb (fst (wkey _)) ReservedWord) with true; cbn [negb]; cbv iota;
  rewrite (proj2 (wkey_inv _ _ W)).
Definition intf_rule (d : intfdecl) : Prop := forall B (k : list intfdecl + list intfdecl -> prog B) acc sc s Q w rest,
  ends_section w = true -> no_directive w -> in_scope sc s (write_intf st d ++ w :: rest) -> good_intf st d sc ->
  (forall d' s1, bare_intf d' = bare_intf d -> in_scope (after_intf d sc) s1 (w :: rest) -> wp (k (inl (acc ++ [d']))) s1 Q) ->
  wp (Bind (intf_decls_step R acc) k) s Q.
Ltac head := unfold intf_decls_step; fl;
  match goal with I : ScopeFacts.in_scope _ _ ?s _ |- wp _ ?s _ =>
    let t := fresh "t" in let W := fresh "W" in
    eapply d_cur; [exact I|]; intros t W; fl; by_name W;
    repeat (match goal with |- context [eqs (rs ?a) ?b] => let v := eval vm_compute in (eqs (rs a) b) in change (eqs (rs a) b) with v end; cbv iota; fl)
  end.
Lemma intf_const l : length (write_intf st (IConst l)) <= m -> intf_rule (IConst l).
Proof.
  intros L B k acc sc s Q w rest Ew Nd I [NE G] K. cbn [write_intf write_section app length] in I, L. head.
  unfold parse_const_section, section_head. fl. eapply d_expect; [exact I|wd|]. intros t0 _. fl.
  eapply d_next; [exact I|apply app_nonempty; discriminate|]. intros t1 s1 I1. fl.
  destruct (list_bounds (write_const st) l ltac:(discriminate)) as [L1 L2].
  eapply (d_decls text (write_const st) bare_const _ after_const (const_section_step R) _ l); [| |exact NE| |exact Ew|exact I1|exact G|].
  - intros x J. unfold write_const. eauto.
  - intros x J. apply const_declares. specialize (L2 x J). lia.
  - rewrite fuel_level. lia.
  - intros l' s2 E I2. fl. cbn [app or_nil]. apply K; [cbn [bare_intf]; now rewrite E|exact I2].
Qed.
Lemma intf_var l : length (write_intf st (IVar l)) <= m -> intf_rule (IVar l).
Proof.
  intros L B k acc sc s Q w rest Ew Nd I [NE G] K. cbn [write_intf write_section app length] in I, L. head.
  unfold parse_var_section, section_head. fl. eapply d_expect; [exact I|wd|]. intros t0 _. fl.
  eapply d_next; [exact I|apply app_nonempty; discriminate|]. intros t1 s1 I1. fl.
  destruct (list_bounds (write_var st) l ltac:(intros x; unfold write_var; apply app_nonempty; discriminate)) as [L1 L2].
  eapply (d_decls text (write_var st) bare_var _ after_var (var_section_step R) _ l); [| |exact NE| |exact Ew|exact I1|exact G|].
  - intros x J. unfold write_var. apply var_first. now destruct (in_turn_in _ _ _ _ _ J G) as (sc' & N & _).
  - intros x J. apply var_declares. specialize (L2 x J). lia.
  - rewrite fuel_level. lia.
  - intros l' s2 E I2. fl. cbn [app or_nil]. apply K; [cbn [bare_intf]; now rewrite E|exact I2].
Qed.
Lemma intf_threadvar l : length (write_intf st (IThreadVar l)) <= m -> intf_rule (IThreadVar l).
Proof.
  intros L B k acc sc s Q w rest Ew Nd I [NE G] K. cbn [write_intf write_section app length] in I, L. head.
  unfold parse_threadvar_section, section_head. fl. eapply d_expect; [exact I|wd|]. intros t0 _. fl.
  eapply d_next; [exact I|apply app_nonempty; discriminate|]. intros t1 s1 I1. fl.
  destruct (list_bounds (write_threadvar st) l ltac:(intros x; unfold write_threadvar; apply app_nonempty; discriminate)) as [L1 L2].
  eapply (d_decls text (write_threadvar st) bare_threadvar _ after_threadvar (threadvar_section_step R) _ l); [| |exact NE| |exact Ew|exact I1|exact G|].
  - intros x J. unfold write_threadvar. apply var_first. now destruct (in_turn_in _ _ _ _ _ J G) as (sc' & N & _).
  - intros x J. apply threadvar_declares. specialize (L2 x J). lia.
  - rewrite fuel_level. lia.
  - intros l' s2 E I2. fl. cbn [app or_nil]. apply K; [cbn [bare_intf]; now rewrite E|exact I2].
Qed.
Lemma intf_type l : length (write_intf st (IType l)) <= m -> intf_rule (IType l).
Proof.
  intros L B k acc sc s Q w rest Ew Nd I [NE G] K. cbn [write_intf write_section app length] in I, L. head.
  unfold parse_type_section, section_head. fl. eapply d_expect; [exact I|wd|]. intros t0 _. fl.
  apply d_postscope. apply (in_scope_post text []) in I. eapply d_next; [exact I|apply app_nonempty; discriminate|]. intros t1 s1 I1. fl.
  destruct (list_bounds (write_typedecl st) l ltac:(discriminate)) as [L1 L2].
  eapply (d_decls text (write_typedecl st) bare_typedecl _ after_typedecl (type_section_step R) _ l); [| |exact NE| |exact Ew|exact I1|exact G|].
  - intros x J. unfold write_typedecl. eauto.
  - intros x J. apply typedecl_declares. specialize (L2 x J). lia.
  - rewrite fuel_level. lia.
  - intros l' s2 E I2. fl. cbn [app or_nil]. eapply (d_runpost text); [exact I2|]. intros s3 I3. fl. apply wp_ret. fl. cbn [app or_nil].
    apply K; [cbn [bare_intf]; now rewrite E|]. now apply in_scope_post.
Qed.

Lemma intf_heading h dirs opts : length (write_intf st (IHeading h dirs opts)) <= m -> intf_rule (IHeading h dirs opts).
Proof.
  intros L B k acc sc s Q w rest Ew Nd I (Gh & Md & Gd) K. cbn [write_intf] in I, L.
  rewrite <- app_assoc in I. cbn [app] in I. rewrite app_length in L. cbn [length] in L.
  assert (X : wp (s0 <- parse_exported_heading R ;; k (inl (acc ++ [s0]))) s Q).
  { unfold parse_exported_heading. set (sc1 := declare [heading_name h] (declare (heading_names h) (enter sc))) in *.
    eapply (d_scoped text _ _ sc sc1 s Q (fun d' => bare_intf d' = bare_intf (IHeading h dirs opts)) _ (w :: rest));
      [exact I|apply ev_exported_heading_scope, recs_at_evolve| |].
    - intros s1 I1. pose proof I1 as I1'. destruct h as [f i params ret]. rewrite w_heading in I1'. cbn [app] in I1'.
      eapply d_cur; [exact I1'|]. intros t0 W0. fl. rewrite (proj2 (wkey_inv _ _ W0)).
      replace (eqs_any (rs (if f then "FUNCTION" else "PROCEDURE")) ["PROCEDURE"; "FUNCTION"]%string) with true by (now destruct f). fl.
      eapply (d_heading text st m (Heading f i params ret)); [lia|exact I1|exact Gh|]. intros h' s2 Eh I2. fl.
      eapply d_expect; [exact I2|wd|]. intros t1 _. fl.
      assert (Nh : i_name (heading_ident h') = i_name i) by (destruct h'; now injection Eh).
      eapply (d_set text); [exact I2|discriminate|repeat constructor; try discriminate; intros []| |].
      { change (map decl_name [mkDecl (heading_ident h') NExported]) with [i_name (heading_ident h')]. rewrite Nh. exact Md. }
      change (map decl_name [mkDecl (heading_ident h') NExported]) with [i_name (heading_ident h')]. rewrite Nh. intros s3 I3. fl.
      eapply d_next; [exact I3|apply app_nonempty; discriminate|]. intros t2 s4 I4. fl.
      eapply (d_directives text st m dirs opts); [exact Gd|lia|exact Nd|exact I4|]. intros s5 I5. fl. apply wp_ret. split; [|exact I5].
      cbn [bare_intf]. now rewrite Eh.
    - intros d' s3 Ed I3. now apply K. }
  destruct h as [f i params ret]. pose proof I as I0. rewrite w_heading in I0. cbn [app] in I0.
  unfold intf_decls_step; fl. eapply d_cur; [exact I0|]. intros t W. fl. by_name W. destruct f; fl;
    repeat (match goal with |- context [eqs (rs ?a) ?b] => let v := eval vm_compute in (eqs (rs a) b) in change (eqs (rs a) b) with v end; cbv iota; fl); exact X.
Qed.
Lemma intf_here d : length (write_intf st d) <= m -> intf_rule d.
Proof.
  intros L. destruct d; [now apply intf_type|now apply intf_var|now apply intf_threadvar|now apply intf_const|now apply intf_heading].
Qed.
Definition intf_words : list string := ["TYPE"; "VAR"; "THREADVAR"; "CONST"; "PROCEDURE"; "FUNCTION"]%string.
Lemma intf_first d : exists x ws, write_intf st d = wkey x :: ws /\ In x intf_words.
Proof.
  destruct d as [l|l|l|l|[f i params ret] dirs opts]; try (eexists _, _; split; [reflexivity|cbn; tauto]).
  destruct f; (eexists _, _; split; [reflexivity|cbn; tauto]).
Qed.
Lemma intf_no_directive x : In x ("IMPLEMENTATION" :: intf_words)%string -> no_directive (wkey x).
Proof.
  intros J t W. unfold p_directive. rewrite dir_w, W. cbn [wkey]. unfold intf_words in J.
  repeat (destruct J as [<-|J]; [vm_compute; reflexivity|]). destruct J.
Qed.
Lemma d_intf_loop {B} (k : list intfdecl -> prog B) l : (forall d, In d l -> intf_rule d) ->
  forall fuel acc sc s Q rest, length l < fuel ->
  in_scope sc s (flat_map (write_intf st) l ++ wkey "IMPLEMENTATION" :: rest) ->
  in_turn (fun d sc _ => good_intf st d sc) after_intf weof weof l sc ->
  (forall l' s1, map bare_intf l' = map bare_intf l -> in_scope (behind_all after_intf l sc) s1 (wkey "IMPLEMENTATION" :: rest) ->
     wp (k (acc ++ l')) s1 Q) ->
  wp (Bind (loop fuel (intf_decls_step R) acc) k) s Q.
Proof.
  induction l as [|d l IH]; intros Hd fuel acc sc s Q rest Lf I G K; (destruct fuel as [|fuel]; [cbn in Lf; lia|]); cbn [loop]; fl.
  - cbn [flat_map app] in I. head. rewrite <- (app_nil_r acc). now apply K.
  - destruct G as [G1 G2]. cbn [flat_map] in I. rewrite <- app_assoc in I.
    assert (exists y ws1, flat_map (write_intf st) l ++ wkey "IMPLEMENTATION" :: rest = wkey y :: ws1 /\ In y ("IMPLEMENTATION" :: intf_words)%string) as (y & ws1 & E1 & Jy).
    { destruct l as [|d' l]; cbn [flat_map app]; [eexists _, _; split; [reflexivity|now left]|].
      destruct (intf_first d') as (y & ws1 & -> & J). cbn [app]. eexists _, _. split; [reflexivity|now right]. }
    rewrite E1 in I. eapply (Hd d (or_introl eq_refl) _ _ acc sc s Q (wkey y) ws1); [reflexivity|now apply intf_no_directive|exact I|exact G1|].
    intros d' s1 Ed I1. fl. rewrite <- E1 in I1. eapply IH; [intros z J; apply Hd; now right|cbn in Lf; lia|exact I1|exact G2|].
    intros l' s2 E I2. rewrite <- app_assoc. cbn [app]. apply K; [cbn [map]; now rewrite Ed, E|exact I2].
Qed.
Lemma ev_intf_step acc : evolves (intf_decls_step R acc).
Proof.
  pose proof (recs_at_evolve m) as RE.
  unfold intf_decls_step. apply evolves_bind; [apply evolves_cur|]. intros t. destruct (p_type EOF t); [apply evolves_ret|].
  destruct (negb _); [apply evolves_failat|]. cbv zeta.
  assert (K : forall A (p : prog A) (f : A -> intfdecl), evolves p -> evolves (x <- p ;; Ret (@inl _ (list intfdecl) (acc ++ [f x])))).
  { intros A p f Ep. apply evolves_bind; [exact Ep|]. intros. apply evolves_ret. }
  destruct (eqs _ "TYPE"); [apply (K _ _ (fun x => IType (or_nil x))), ev_parse_type_section, RE|].
  destruct (eqs _ "VAR"); [apply (K _ _ (fun x => IVar (or_nil x))), ev_parse_var_section, RE|].
  destruct (eqs _ "THREADVAR"); [apply (K _ _ (fun x => IThreadVar (or_nil x))), ev_parse_threadvar_section, RE|].
  destruct (eqs _ "CONST"); [apply (K _ _ (fun x => IConst (or_nil x))), ev_parse_const_section, RE|].
  destruct (eqs _ "FUNCTION"); [apply (K _ _ (fun x => x)), ev_parse_exported_heading, RE|].
  destruct (eqs _ "PROCEDURE"); [apply (K _ _ (fun x => x)), ev_parse_exported_heading, RE|]. apply evolves_ret.
Qed.
End Level.
End WithUnicode.
