(** The theorems about types, declarations, blocks and programs. *)
From Coq Require Import String List NArith Bool Arith Lia.
From Verif Require Import ListUtil Runes UnicodeFacts Token Tokenizer LexSpec LexShape LexFacts LexMain Ext ExtMain
  Ast Heap Classes MapSpec MapFacts MapMain Prog ParseSpec Parser RunFacts ExprSpec WpFacts ExprFacts ExprMain StmtSpec
  GrowFacts StmtFacts EvolveFacts EvolveParse DeclSpec ScopeFacts DeclFacts TypeFacts TypePropFacts SectionFacts Units.
Import ListNotations.
Local Open Scope list_scope.
Local Open Scope prog_scope.

Section WithUnicode.
Context {U : Unicode} {UOK : UnicodeOk U}.

Notation words := (list (ttype * gostring)).

Lemma in_scope_here text sc s ws : knows s sc -> stands text s ws -> in_scope text sc s ws.
Proof. intros (PC & T & LE) St. eapply in_scope_le; [exact LE|]. constructor; auto. Qed.
Lemma in_scope_at text sc s ws : in_scope text sc s ws -> knows s sc.
Proof. intros []. split; [auto|]. split; [auto|]. unfold scope_le, scope_at. cbn [known free undeclared ordinal]. auto 10. Qed.
Lemma run_of {A} (p : prog A) s Q : wp (Bind p Ret) s Q -> exists a s', run p s = OOk a s' /\ Q a s'.
Proof. intros H. apply wp_elim in H as (a & s' & E & H). rewrite run_bind in E. destruct (run p s) as [a1 s1| | | |] eqn:Er; try discriminate E. cbn in E. injection E as -> ->. eauto. Qed.

Theorem type_round_trip :
  forall text s st t sc after rest fuel,
    knows s sc -> good_ty st t sc after ->
    stands text s (write_ty st t ++ after :: rest) -> length (write_ty st t) <= fuel ->
    exists t' s', run (parse_type (recs_at fuel)) s = OOk t' s' /\ bare_ty t' = bare_ty t /\
      stands text s' (left_over t ++ after :: rest) /\ knows s' (declare (type_names t) sc).
Proof.
  intros text s st t sc after rest fuel Kn G St L. apply run_of.
  eapply (proj1 (types_at text st fuel) t L); [apply in_scope_here; [exact Kn|exact St]|exact G|].
  intros t' s1 E _ I1. apply wp_ret. split; [exact E|]. split; [apply I1|]. eapply in_scope_at, I1.
Qed.

Theorem section_round_trip :
  forall text s st d sc after rest fuel,
    knows s sc -> good_section st d sc -> fst after = ReservedWord \/ fst after = EOF ->
    stands text s (write_section st d ++ after :: rest) -> length (write_section st d) <= fuel ->
    exists d' s', run (parse_decl_section (recs_at fuel)) s = OOk (Some d') s' /\ bare_section d' = bare_section d /\
      stands text s' (match d with DSFunc _ _ _ _ => [wsym ";"] | _ => [] end ++ after :: rest) /\
      knows s' (after_section d sc).
Proof.
  intros text s st d sc after rest fuel Kn G Ea St L.
  assert (wp (Bind (parse_decl_section (recs_at fuel)) Ret) s (fun r s' => exists d', r = Some d' /\ bare_section d' = bare_section d /\
      stands text s' (match d with DSFunc _ _ _ _ => [wsym ";"] | _ => [] end ++ after :: rest) /\ knows s' (after_section d sc))) as H.
  { eapply (sections_at text st fuel d L); [|apply in_scope_here; [exact Kn|exact St]|exact G|].
    - unfold ends_section. destruct Ea as [-> | ->]; reflexivity.
    - intros d' s1 E I1. apply wp_ret. exists d'. split; [reflexivity|]. split; [exact E|]. split; [apply I1|]. eapply in_scope_at, I1. }
  apply run_of in H as (r & s' & E & d' & -> & H). eauto.
Qed.

Theorem block_round_trip :
  forall text s st b sc after rest fuel,
    knows s sc -> good_block st b sc -> after <> wkey "EXPORTS" ->
    stands text s (write_block st b ++ after :: rest) -> length (write_block st b) <= fuel ->
    exists b' s', run (parse_block (recs_at fuel)) s = OOk b' s' /\ bare_block b' = bare_block b /\
      stands text s' (after :: rest) /\ knows s' (after_block b sc).
Proof.
  intros text s st b sc after rest fuel Kn G Na St L. apply run_of.
  eapply (blocks_at text st fuel b L); [apply in_scope_here; [exact Kn|exact St]|exact G|exact Na|].
  intros b' s1 E I1. apply wp_ret. split; [exact E|]. split; [apply I1|]. eapply in_scope_at, I1.
Qed.

(** ** Programs *)
Lemma program_start text path s ws : let hc := new_program_context heap0 path in
  h_maps (s_heap s) = h_maps (fst hc) -> h_ctxs (s_heap s) = h_ctxs (fst hc) -> s_ctx s = snd hc -> stands text s ws -> in_scope text program_scope s ws.
Proof.
  intros hc Em Eh Ec St. assert (Gt : forall n, ctx_get (s_heap s) (s_ctx s) n = match embedded_get n with Some d => LFound d | None => LNil end).
  { intros n. unfold ctx_get. rewrite Ec. cbn [hc new_program_context new_chained new_map fst snd heap0 with_maps with_ctxs h_ctxs h_maps length app ctx_get_fuel] in *.
    rewrite Eh. cbn [nth_error cx_kind cx_map dget]. unfold impl_get. rewrite Em. reflexivity. }
  assert (Ty : forall n i, embedded_get n = Some i -> exists t, deref (s_heap s) i = Some t /\ exists ty, d_node t = NType ty).
  { intros n i E. assert (Ed : dget (s_heap s) DEmbedded n = LFound i) by (cbn [dget]; now rewrite E).
    destruct (builtins_only (s_heap s) n i Ed) as (k & nm & _ & _ & D). rewrite D. eexists. split; [reflexivity|]. eexists. reflexivity. }
  constructor; cbn [program_scope known names plain_name type_name member a_label no_label free undeclared ordinal].
  - exists (mkCtx (KProgram []) (Some path) (DChained DEmbedded 0)). rewrite Eh, Ec. split; [reflexivity|discriminate].
  - intros n. rewrite Gt. destruct (embedded_get n); discriminate.
  - intros n E. left. rewrite Gt, E. reflexivity.
  - intros n E. destruct (embedded_get n) as [i|] eqn:Ei; [|congruence]. destruct (Ty n i Ei) as (t & D & ty & Et). exists i, ty. split; [rewrite Gt, Ei; reflexivity|]. eauto.
  - intros n m (d & d' & []).
  - intros n [].
  - intros n _. destruct (embedded_get n) as [i|] eqn:Ei; [|left; rewrite Gt, Ei; reflexivity].
    destruct (Ty n i Ei) as (t & D & ty & Et). right. exists i, (d_node t). split; [split; [rewrite Gt, Ei; reflexivity|eauto]|]. rewrite Et. discriminate.
  - intros n _. exists (mkCtx (KProgram []) (Some path) (DChained DEmbedded 0)), 0, []. rewrite Eh, Ec, Em. auto.
  - intros n E. rewrite Gt, E. reflexivity.
  - intros n E. now left.
  - exact St.
Qed.

Lemma d_onheap {A B} (f : nat -> heap -> hres A) (k : A -> prog B) s Q a h : f (s_ctx s) (s_heap s) = HOk a h ->
  wp (k a) (with_heap h s) Q -> wp (Bind (OnHeap f) k) s Q.
Proof. intros E K. apply wp_bind. eapply wp_run; [|exact K]. cbn [run]. now rewrite E. Qed.
Lemma stands_with_heap text h s ws : stands text s ws -> stands text (with_heap h s) ws.
Proof. intros (t & ws' & E & C & A). exists t, ws'. auto. Qed.

Theorem program_round_trip :
  forall files sep order topo path text ls name st b rest fuel,
    files path = Some text -> written ls text ->
    map word ls = wkey "PROGRAM" :: wident name :: wsym ";" :: write_block st b ++ wsym "." :: rest ->
    good_block st b program_scope -> length ls <= fuel ->
    exists pa pc h i b',
      parse_program (recs_at fuel) files sep order topo path = ROk (pa, pc) h /\
      nth_error (h_progs h) pa = Some (mkProg path i (Some (mkProgramBlock None b')) DNil) /\
      i_name i = name /\ bare_block b' = bare_block b.
Proof.
  intros files sep order topo path text ls name st b rest fuel F W E G L.
  unfold parse_program. rewrite F. set (h0 := fst (new_program_context heap0 path)). change (new_program_context heap0 path) with (h0, 0).
  cbv iota beta. destruct (stands_start text ls 0 [] h0 W) as (s & N & St & Ec & Ep & Eh). change (run Next ?x) with (next_token x). rewrite N.
  rewrite E in St. cbn [app] in St. rewrite <- app_assoc in St. cbn [app] in St.
  assert (Lb : length (write_block st b) <= fuel).
  { apply (f_equal (@length _)) in E. rewrite map_length in E. cbn [length] in E. rewrite app_length in E. cbn [length] in E. lia. }
  assert (H : wp (parse_program_head (recs_at fuel) 0) s (fun r s1 => r = (0, None) /\ exists i, h_progs (s_heap s1) = [mkProg path i None DNil] /\ i_name i = name /\
     in_scope text program_scope s1 (write_block st b ++ wsym "." :: rest ++ [weof]))).
  { destruct (block_first st b _ G) as (x & ws & Eb & Jx).
    destruct (stands_cur _ _ _ _ St) as (t0 & C0 & W0 & _).
    unfold parse_program_head. apply wp_bind. eapply wp_expect; [exact C0|rewrite kw_w, W0; reflexivity|].
    apply wp_bind. eapply wp_expect_next; [exact St|intros t W1; rewrite type_w, W1; reflexivity|]. intros t s1 _ Wt St1 (Sc1 & Sp1 & Sh1).
    eapply d_onheap.
    { replace (ctx_path (s_heap s1) 0) with (Some path) by (rewrite <- Sh1, Eh; reflexivity). rewrite <- Sh1, Eh. reflexivity. }
    apply (stands_with_heap text (with_progs (h_progs h0 ++ [mkProg path (new_ident t) None DNil]) h0)) in St1.
    apply wp_bind. eapply wp_expect_next; [exact St1|intros t1 W1; rewrite sym_w, W1; reflexivity|]. intros t1 s2 _ _ St2 (Sc2 & Sp2 & Sh2).
    apply wp_bind. eapply wp_next; [exact St2|apply app_nonempty; discriminate|]. intros t2 s3 _ _ St3 (Sc3 & Sp3 & Sh3).
    assert (I : in_scope text program_scope s3 (write_block st b ++ wsym "." :: rest ++ [weof])).
    { apply (program_start text path); rewrite <- ?Sh3, <- ?Sh2, <- ?Sc3, <- ?Sc2; try reflexivity; [|exact St3]. cbn [s_ctx with_heap]. now rewrite <- Sc1, Ec. }
    pose proof I as I'. rewrite Eb in I'. cbn [app] in I'.
    eapply (d_is text _ s3 _ (kw "USES") false); [exact I'| |].
    { intros t3 W3. rewrite kw_w, W3. unfold block_words, section_words in Jx. cbn [app] in Jx. repeat (destruct Jx as [<-|Jx]; [reflexivity|]). destruct Jx. }
    apply wp_ret_bind. apply wp_ret. split; [reflexivity|]. exists (new_ident t). split; [rewrite <- Sh3, <- Sh2; reflexivity|].
    split; [|exact I]. apply wident_inv in Wt as [_ Rt]. exact Rt. }
  apply wp_elim in H as (r & s1 & R1 & -> & i & Pg & Ni & I). unfold parse_program_at. rewrite R1. cbn [on_parser rbind]. rewrite with_same_heap.
  assert (H : wp (Bind (parse_block (recs_at fuel)) Ret) s1 (fun b' s2 => bare_block b' = bare_block b /\ stands text s2 (wsym "." :: rest ++ [weof]))).
  { eapply (blocks_at text st fuel b Lb); [exact I|exact G|discriminate|]. intros b' s2 Eb I2. apply wp_ret. split; [exact Eb|apply I2]. }
  apply run_of in H as (b' & s2 & R2 & Eb & St2).
  assert (Ev : evolved s1 s2) by (eapply ev_parse_block; [apply recs_at_evolve|apply I|exact R2]).
  pose proof (ev_progs _ _ Ev) as Pg2. rewrite Pg in Pg2. destruct (stands_cur _ _ _ _ St2) as (t0 & C0 & W0 & _).
  assert (H : wp (parse_program_rest (recs_at fuel) 0 None) s1 (fun r s2 => r = 0 /\ nth_error (h_progs (s_heap s2)) 0 = Some (mkProg path i (Some (mkProgramBlock None b')) DNil))).
  { unfold parse_program_rest. apply wp_bind. eapply wp_run; [exact R2|]. eapply d_onheap; [rewrite Pg2; reflexivity|].
    apply wp_bind. eapply wp_expect; [exact C0|rewrite sym_w, W0; reflexivity|]. apply wp_ret. split; reflexivity. }
  apply wp_elim in H as (r & s3 & R3 & -> & Pr). rewrite R3. cbn [on_parser rbind fst snd]. exists 0, 0, (s_heap s3), i, b'. auto.
Qed.
End WithUnicode.
