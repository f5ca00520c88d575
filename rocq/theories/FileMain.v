(** ParseProgram looks at the file of the program and at the files of its units, and at no other. *)
From Coq Require Import String List NArith Bool Arith Lia Permutation.
From Verif Require Import ListUtil Runes UnicodeFacts Token Tokenizer CursorFacts Ast Ext ExtSpec Heap Classes MapFacts MapSpec Prog Parser Units UnitSpec SortMain RunFacts CaseSpec
  ProgramLinkFacts IdSpec IdFacts IdParse IdUnits IdMain.
From Verif Require OfferAll TermUnitSpec TermUnit Heap TermMain TermHead TermProgram ProgramMain.
Import ListNotations.
Local Open Scope list_scope.

Section WithUnicode.
Context {U : Unicode} {UOK : UnicodeOk U}.

(** ** What is read *)

Lemma each_of_ext {A B} (f g : A -> heap -> result B) : forall l h, (forall a h, In a l -> f a h = g a h) -> each_of f l h = each_of g l h.
Proof.
  induction l as [|a l IH]; intros h E; cbn [each_of]; [reflexivity|]. rewrite (E a h (or_introl eq_refl)).
  destruct (g a h) as [b h1| | | |]; cbn [rbind]; try reflexivity. rewrite IH; [reflexivity|]. intros; apply E; now right.
Qed.

Section Files.
Context (R : recs) (RS : recs_spelled R).

(** The paths of the units, known when the uses clause of the program is *)
Definition unit_paths (sep : rune) (path : gostring) (text : list rune) : list gostring :=
  let '(h, pc) := new_program_context heap0 path in
  match run Next (mkPst (new_tokenizer text false false) None pc [] h) with
  | OOk _ s =>
      match run (parse_program_head R pc) s with
      | OOk (_, Some us) s1 => map snd (fst (unit_contexts sep pc us (s_heap s1)))
      | _ => []
      end
  | _ => []
  end.
Lemma load_units_ext files files' sep order topo pc pa us h : (forall q, In q (map snd (fst (unit_contexts sep pc us h))) -> files' q = files q) ->
  load_units R files' sep order topo pc pa us h = load_units R files sep order topo pc pa us h.
Proof.
  intros A. unfold load_units. destruct (unit_contexts sep pc us h) as [cps h1]. cbn [fst] in A.
  rewrite (each_of_ext (load_unit R files' pc) (load_unit R files pc)); [reflexivity|].
  intros [c q] g J. unfold load_unit. rewrite A; [reflexivity|]. now apply (in_map snd) in J.
Qed.
Lemma program_ext files files' sep order topo path text : files path = Some text -> files' path = Some text ->
  (forall q, In q (unit_paths sep path text) -> files' q = files q) ->
  parse_program R files' sep order topo path = parse_program R files sep order topo path.
Proof.
  intros F F' A. unfold parse_program. rewrite F, F'. unfold unit_paths in A. destruct (new_program_context heap0 path) as [h pc].
  destruct (run Next _) as [o s| | | |]; try reflexivity. unfold parse_program_at.
  destruct (run (parse_program_head R pc) s) as [[pa l] s1| | | |]; cbn [on_parser rbind]; try reflexivity.
  destruct l as [us|]; [|reflexivity]. now rewrite (load_units_ext files files').
Qed.

Context (files : gostring -> option (list rune)).

(** ** The paths of units stay *)

Definition path_kept (k : nat) (h h' : heap) : Prop := forall o, nth_error (h_units h) k = Some o ->
  exists o', nth_error (h_units h') k = Some o' /\ un_path o' = un_path o.
Lemma path_kept_trans k h1 h2 h3 : path_kept k h1 h2 -> path_kept k h2 h3 -> path_kept k h1 h3.
Proof. intros A B o E. destruct (A o E) as (o2 & E2 & P2). destruct (B o2 E2) as (o3 & E3 & P3). exists o3. split; [exact E3|congruence]. Qed.
Lemma path_kept_tree k h h' : unit_kept k h h' -> path_kept k h h'.
Proof. intros K o E. destruct (K o E) as (o' & E' & (P & _)). eauto. Qed.
Lemma path_held text h u path (Q Q' : gostring -> unitobj -> Prop) s s' : (forall o, Q path o -> path_is path o) -> (forall o, Q' path o -> path_is path o) ->
  held text h u (Q path) [] s -> s_heap s = h -> held text h u (Q' path) [] s' -> forall k, path_kept k h (s_heap s').
Proof.
  intros I I' (_ & o & No & _ & q & _) Eh (F & o' & No' & _ & q' & _) k x Ex. rewrite Eh in No. destruct (Nat.eq_dec k u) as [->|D].
  - rewrite Ex in No. injection No as <-. exists o'. split; [exact No'|]. rewrite (I _ q), (I' _ q'). reflexivity.
  - eapply (path_kept_tree k); [apply (fr_units _ _ _ F); congruence|exact Ex].
Qed.
Definition keeps_paths (f : uparser -> heap -> result uparser) (Q : gostring -> unitobj -> Prop) : Prop :=
  forall p h p' h', f p h = ROk p' h' -> waits files Q h p -> forall k, path_kept k h h'.
Lemma intf_keeps_paths : keeps_paths (intf_of R) st1.
Proof.
  intros p h p' h' E W. unfold intf_of in E. destruct (waits_held _ _ _ _ W) as (text & path & F & H).
  pose proof (q_process_intf_body R RS (up_uc p) _ _ _ _ _ H) as X. unfold wq in X.
  destruct (run _ _) as [a s| | | |]; cbn [on_parser rbind snd] in E; try discriminate. injection E as <- <-.
  eapply (path_held text h _ path st1 st2); [now intros ? []|now intros ? []|exact H|reflexivity|exact X].
Qed.
Lemma impl_keeps_paths : keeps_paths (impl_of R) st2.
Proof.
  intros p h p' h' E W. unfold impl_of, process_impl_and_init in E. destruct (waits_held _ _ _ _ W) as (text & path & F & H).
  set (u := up_unit p) in *. set (uc := up_uc p) in *.
  assert (X : wq (Bind (parse_impl_uses R uc u) (fun l => impl_scope uc u l)) (fun _ s' => held text h u (st3 path) [] s') (up_pst p h)).
  { apply wq_bind. eapply wq_weak; [apply (q_impl_uses R uc _ _ _ _ _ H)|cbv beta]. intros l s1 H1. now apply q_impl_scope. }
  unfold wq in X. destruct (run (Bind (parse_impl_uses R uc u) _) _) as [m s1| | | |]; cbn [on_parser rbind] in E; try discriminate.
  assert (Y : wq (Bind (parse_impl_body R u) (fun _ => parse_unit_end R u)) (fun _ s' => held text h u (path_is path) [] s') s1).
  { apply wq_bind. eapply wq_weak; [apply (q_impl_body R RS _ _ _ _ _ X)|cbv beta]. intros _ s2 H2. now apply q_unit_end. }
  unfold wq in Y. destruct (run (Bind (parse_impl_body R u) _) _) as [y s2| | | |]; cbn [on_parser rbind snd] in E; try discriminate. injection E as <- <-.
  assert (Z : held text h u (path_is path) [] (with_heap (put_unit (s_heap s2) u (with_unit_map m)) s2)).
  { eapply held_heap; [exact Y| |apply tree_path]. apply frame_put_same. now intros. }
  exact (path_held text h u path st2 path_is _ _ (fun o q => proj1 q) (fun o q => q) H eq_refl Z).
Qed.
Lemma pass_keeps_paths f (Q Q' : gostring -> unitobj -> Prop) : step files f Q Q' -> (forall path, of_tree (Q path)) -> keeps_paths f Q ->
  forall l h l' h', Forall (waits files Q h) l -> NoDup (map up_unit l) -> each_of f l h = ROk l' h' -> forall k, path_kept k h h'.
Proof.
  intros St T Kp. induction l as [|p l IH]; intros h l' h' W N; cbn [each_of].
  - intros [= _ <-] k o E. eauto.
  - inversion W as [|? ? Wp Wl]; subst. cbn [map] in N. apply NoDup_cons_iff in N as [Np Nl].
    destruct (f p h) as [p1 h1| | | |] eqn:E; cbn [rbind]; try discriminate. destruct (St _ _ _ _ E Wp) as (U1 & F1 & W1).
    destruct (each_of f l h1) as [l1 h2| | | |] eqn:E2; cbn [rbind]; try discriminate. intros [= _ <-] k.
    eapply path_kept_trans; [eapply Kp; eauto|]. eapply (IH h1); [|exact Nl|exact E2].
    rewrite Forall_forall in Wl |- *. intros q J. eapply waits_many; [exact T|apply frame_many, F1| |auto].
    intros [X|[]]. apply Np. rewrite X. now apply in_map.
Qed.

(** ** The paths of the units loaded *)

Lemma load_path pc uc path h p h' : load_unit R files pc (uc, path) h = ROk p h' -> has_path h uc path ->
  files path <> None /\ exists o, nth_error (h_units h') (up_unit p) = Some o /\ un_path o = path.
Proof.
  unfold load_unit. destruct (files path) as [text|] eqn:F; [|discriminate]. intros E Hp. split; [discriminate|]. set (s0 := mkPst _ None uc [] h) in E.
  assert (X : wq (Bind Next (fun _ => parse_ident_and_intf_uses R uc)) (fun u s' => exists q,
    ctx_path h uc = Some q /\ nth_error (h_units h) u = None /\ held text h u (st1 q) [] s') s0).
  { apply wq_bind, (wq_next text []); [apply start_after|]. intros o s1 A1 H1. eapply wq_weak; [apply (q_ident_and_intf_uses R uc _ _ A1)|cbv beta].
    intros u s2. now rewrite H1. }
  unfold wq in X. destruct (run _ s0) as [u s| | | |]; cbn [on_parser rbind] in E; try discriminate. injection E as <- <-. cbn [up_unit up_of].
  destruct X as (q & P & N & H). rewrite (has_path_ctx _ _ _ Hp) in P. injection P as <-. destruct H as (_ & o & No & _ & (Po & _) & _).
  destruct (fr_units _ _ _ (frame_add None (s_heap s) pc u) u ltac:(discriminate) o No) as (o' & No' & (Po' & _)). exists o'. split; [exact No'|].
  unfold path_is in Po. congruence.
Qed.
Lemma load_paths pc : forall cps h ps h', each_of (load_unit R files pc) cps h = ROk ps h' ->
  (forall c q, In (c, q) cps -> has_path h c q) -> all_fit files h ->
  Forall2 (fun cp p => files (snd cp) <> None /\ exists o, nth_error (h_units h') (up_unit p) = Some o /\ un_path o = snd cp) cps ps.
Proof.
  induction cps as [|[c q] cps IH]; intros h ps h'; cbn [each_of].
  - intros [= <- <-] _ _. constructor.
  - intros E Hp A. destruct (load_unit R files pc (c, q) h) as [p h1| | | |] eqn:E1; cbn [rbind] in E; try discriminate.
    destruct (load_one _ _ _ _ _ _ _ _ E1 (Hp _ _ (or_introl eq_refl))) as (N1 & F1 & W1 & P1).
    destruct (load_path _ _ _ _ _ _ E1 (Hp _ _ (or_introl eq_refl))) as (Fq & o & No & Po).
    destruct (each_of _ cps h1) as [ps1 h2| | | |] eqn:E2; cbn [rbind] in E; try discriminate. injection E as <- <-.
    assert (A1 : all_fit files h1).
    { eapply all_fit_frame; [exact F1|exact A|]. intros k x [= <-] Nx. eapply waits_fitted; [|exact W1|exact Nx]. now intros ? ? []. }
    assert (Hp1 : forall c0 q0, In (c0, q0) cps -> has_path h1 c0 q0) by (intros; apply P1, Hp; now right).
    destruct (load_all _ _ _ _ _ _ _ E2 Hp1 A1) as (_ & _ & _ & (_ & _ & M) & _).
    constructor; [|eapply IH; eauto]. split; [exact Fq|]. destruct (path_kept_tree _ _ _ (M (up_unit p) (fun x => x)) o No) as (o' & No' & Po').
    exists o'. split; [exact No'|]. cbn [snd]. congruence.
Qed.
Lemma load_units_paths sep order topo pc pa us h h' : iterates order -> lists_once topo -> (forall k, nth_error (h_units h) k = None) ->
  load_units R files sep order topo pc pa us h = ROk tt h' ->
  forall q, In q (map snd (fst (unit_contexts sep pc us h))) -> files q <> None /\ exists o, In o (h_units h') /\ un_path o = q.
Proof.
  intros It To Em E.
  destruct (OfferAll.load_units_parts _ _ _ _ _ _ _ _ _ _ E) as (cps & h1 & ps & h2 & sorted & sorted1 & h3 & sorted2 & h4 & Ec & El & Es & E3 & E4 & _ & Un). clear E.
  rewrite Ec. cbn [fst]. destruct (contexts files _ _ _ _ _ _ Ec) as (F1 & _ & Hp).
  assert (Em1 : forall k, nth_error (h_units h1) k = None) by (intros k; apply (fr_back _ _ _ F1); [discriminate|apply Em]).
  assert (A1 : all_fit files h1) by (intros k o No; rewrite Em1 in No; discriminate).
  destruct (load_all _ _ _ _ _ _ _ El Hp A1) as (W2 & D2 & _ & _ & A2). pose proof (load_paths _ _ _ _ _ El Hp A1) as P2.
  destruct (sorted_units _ _ _ _ _ It To D2 Es) as [Inc Nd].
  assert (W : Forall (waits files st1 h2) sorted) by (rewrite Forall_forall in W2 |- *; auto).
  destruct (pass _ _ _ _ (step_intf _ RS _) tree1 tree2 (fun path o q => proj1 q) _ _ _ _ W Nd A2 E3) as (U3 & W3 & _ & _).
  pose proof (pass_keeps_paths _ _ _ (step_intf _ RS _) tree1 intf_keeps_paths _ _ _ _ W Nd E3) as K3.
  pose proof (pass_keeps_paths _ _ _ (step_impl _ RS _) tree2 impl_keeps_paths _ _ _ _ W3 ltac:(rewrite U3; exact Nd) E4) as K4.
  intros q J. apply in_map_iff in J as (cp & <- & J).
  assert (X : exists p, In p ps /\ files (snd cp) <> None /\ exists o, nth_error (h_units h2) (up_unit p) = Some o /\ un_path o = snd cp).
  { clear - P2 J. induction P2 as [|x y l l' H _ IH]; [destruct J|]. destruct J as [->|J]; [exists y; split; [now left|exact H]|].
    destruct (IH J) as (p & Jp & X). exists p. split; [now right|exact X]. }
  destruct X as (p & Jp & Fq & o & No & Po). split; [exact Fq|].
  destruct (path_kept_trans _ _ _ _ (K3 _) (K4 _) o No) as (o' & No' & Po'). exists o'. rewrite Un. split; [eapply nth_error_In, No'|congruence].
Qed.
Lemma load_units_back sep order topo pc pa us h h' : iterates order -> lists_once topo -> (forall k, nth_error (h_units h) k = None) ->
  load_units R files sep order topo pc pa us h = ROk tt h' ->
  forall o, In o (h_units h') -> In (un_path o) (map snd (fst (unit_contexts sep pc us h))).
Proof.
  intros It To Em E.
  destruct (OfferAll.load_units_parts _ _ _ _ _ _ _ _ _ _ E) as (cps & h1 & ps & h2 & sorted & sorted1 & h3 & sorted2 & h4 & Ec & El & Es & E3 & E4 & _ & Un). clear E.
  rewrite Ec. cbn [fst]. destruct (contexts files _ _ _ _ _ _ Ec) as (F1 & _ & Hp).
  assert (Em1 : forall k, nth_error (h_units h1) k = None) by (intros k; apply (fr_back _ _ _ F1); [discriminate|apply Em]).
  assert (A1 : all_fit files h1) by (intros k o No; rewrite Em1 in No; discriminate).
  destruct (load_all _ _ _ _ _ _ _ El Hp A1) as (W2 & D2 & _ & _ & A2). pose proof (load_paths _ _ _ _ _ El Hp A1) as P2.
  destruct (OfferAll.load_covers _ _ _ _ _ _ _ El Hp A1) as [C2 _].
  destruct (sorted_units _ _ _ _ _ It To D2 Es) as [Inc Nd].
  assert (W : Forall (waits files st1 h2) sorted) by (rewrite Forall_forall in W2 |- *; auto).
  destruct (pass _ _ _ _ (step_intf _ RS _) tree1 tree2 (fun path o q => proj1 q) _ _ _ _ W Nd A2 E3) as (U3 & W3 & _ & _).
  pose proof (pass_keeps_paths _ _ _ (step_intf _ RS _) tree1 intf_keeps_paths _ _ _ _ W Nd E3) as K3.
  pose proof (pass_keeps_paths _ _ _ (step_impl _ RS _) tree2 impl_keeps_paths _ _ _ _ W3 ltac:(rewrite U3; exact Nd) E4) as K4.
  pose proof (OfferAll.step_back _ _ _ _ (step_intf _ RS _) tree1 _ _ _ _ W Nd E3) as B3.
  pose proof (OfferAll.step_back _ _ _ _ (step_impl _ RS _) tree2 _ _ _ _ W3 ltac:(rewrite U3; exact Nd) E4) as B4.
  intros o J. apply In_nth_error in J as (k & No). rewrite Un in No.
  assert (N2 : nth_error (h_units h2) k <> None) by (intros X; rewrite (B4 _ (B3 _ X)) in No; discriminate).
  destruct (C2 k N2) as [X|J2]; [now rewrite Em1 in X|]. apply in_map_iff in J2 as (p & <- & J2).
  assert (X : exists cp, In cp cps /\ exists o, nth_error (h_units h2) (up_unit p) = Some o /\ un_path o = snd cp).
  { clear - P2 J2. induction P2 as [|x y l l' [_ H] _ IH]; [destruct J2|]. destruct J2 as [->|J]; [exists x; split; [now left|exact H]|].
    destruct (IH J) as (cp & Jp & X). exists cp. split; [now right|exact X]. }
  destruct X as (cp & Jc & o2 & No2 & Po2). destruct (path_kept_trans _ _ _ _ (K3 _) (K4 _) o2 No2) as (o' & No' & Po').
  rewrite No in No'. injection No' as <-. rewrite Po', Po2. now apply in_map.
Qed.
Lemma program_paths sep order topo path text pa pc h : iterates order -> lists_once topo -> files path = Some text ->
  parse_program R files sep order topo path = ROk (pa, pc) h ->
  (forall q, In q (unit_paths sep path text) <-> exists o, In o (h_units h) /\ un_path o = q) /\
  (forall q, In q (unit_paths sep path text) -> files q <> None).
Proof.
  intros It To F. unfold parse_program, unit_paths. rewrite F.
  assert (H0 : h_units (fst (new_program_context heap0 path)) = []) by reflexivity.
  destruct (new_program_context heap0 path) as [h0 c]. cbn [fst] in H0.
  pose proof (wq_next text [] (fun _ s' => after text s' [] /\ s_heap s' = h0) _ (start_after text c h0) (fun _ s' A E => conj A E)) as X.
  unfold wq in X. destruct (run Next _) as [o0 s| | | |]; try discriminate. destruct X as [A0 Eh].
  unfold parse_program_at. pose proof (q_program_head R files c _ _ A0) as X. unfold wq in X.
  destruct (run (parse_program_head R c) s) as [[pa1 l] s1| | | |]; cbn [on_parser rbind]; try discriminate. cbn [fst snd] in X.
  destruct X as (o1 & _ & _ & _ & F1 & A1).
  assert (Em : forall k, nth_error (h_units (s_heap s1)) k = None).
  { intros k. apply (fr_back _ _ _ F1); [discriminate|]. rewrite Eh, H0. now destruct k. }
  destruct (match l with Some us => load_units R files sep order topo c pa1 us (s_heap s1) | None => ROk tt (s_heap s1) end) as [[] h2| | | |] eqn:E2; cbn [rbind]; try discriminate.
  destruct (run (parse_program_rest R pa1 l) _) as [pa2 s3| | | |] eqn:E3; cbn [on_parser rbind fst snd]; try discriminate. intros [= _ _ <-].
  assert (U3 : h_units (s_heap s3) = h_units h2).
  { assert (A2 : after text (with_heap h2 s1) []) by (apply after_heap; eapply after_sub; [exact A1|exact (subseq_end [] [] _ (subseq_refl []))]).
    assert (Q : wq (parse_program_rest R pa1 l) (fun _ s' => h_units (s_heap s') = h_units h2) (with_heap h2 s1)).
    { unfold parse_program_rest. apply wq_bind. eapply wq_spelled; [apply (i_parse_block R RS)|exact A2|].
      intros b s4 A4 (S1 & _ & _). apply wq_bind, wq_heap. intros x h'. destruct (nth_error (h_progs (s_heap s4)) pa1); [|discriminate]. intros [= _ <-].
      apply wq_bind. eapply (wq_expect text); [apply after_heap; exact A4|]. intros t A5 _. apply wq_ret. exact S1. }
    unfold wq in Q. rewrite E3 in Q. exact Q. }
  rewrite U3. destruct l as [us|].
  - pose proof (load_units_paths _ _ _ _ _ _ _ _ It To Em E2) as Y. split; [|intros q J; now apply Y].
    intros q. split; [intros J; now apply Y|]. intros (o & J & <-). eapply load_units_back; eauto.
  - injection E2 as <-. split; [|intros q []]. intros q. split; [intros []|]. intros (o & J & _). apply In_nth_error in J as (k & J). now rewrite Em in J.
Qed.
End Files.

(** What the head of a program says *)
Lemma head_uses n sep path text :
  let '(h0, pc) := new_program_context heap0 path in
  match run Next (mkPst (new_tokenizer text false false) None pc [] h0) with
  | OOk _ s =>
      match run (parse_program_head (recs_at n) pc) s with
      | OOk (_, Some us) s1 => exists l, TermUnitSpec.program_uses text l /\
          map snd (fst (unit_contexts sep pc us (s_heap s1))) = TermUnitSpec.unit_files sep l
      | OOk (_, None) _ => exists name w, w <> ParseSpec.wkey "USES" /\
          TermUnitSpec.begins text [ParseSpec.wkey "PROGRAM"; ParseSpec.wident name; ParseSpec.wsym ";"; w]
      | _ => True
      end
  | _ => True
  end.
Proof.
  cbn [new_program_context new_chained new_map heap0]. set (h0 := with_ctxs _ _). set (pc := length _).
  assert (K0 : TermProgram.hok true 1 h0).
  { split; [exact (TermMain.fresh_sound path)|]. split; [constructor|now left]. }
  assert (CP0 : Heap.ctx_path h0 pc = Some path) by reflexivity.
  pose proof (TermProgram.text_starts true 1 text path pc h0 K0 CP0) as X.
  destruct (run Next _) as [x s|e s| | |]; try contradiction; [|exact I]. destruct X as (O & Hh & Hc & B).
  assert (CPs : Heap.ctx_path (s_heap s) pc = Some path) by (rewrite Hh; exact CP0).
  pose proof (ProgramMain.does_program_head true 1 n (fun _ => None) text path pc s path (or_introl eq_refl) O CPs) as X. unfold TermUnit.does in X.
  destruct (run (parse_program_head (recs_at n) pc) s) as [[pa [us|]] s1|e s1| | |]; try exact I.
  - destruct X as (O1 & _ & _ & _ & src & name & It & St). apply B in St.
    pose proof (proj1 (TermProgram.okw_iff _ _ _ _ _) O1) as (_ & K1 & _).
    pose proof (TermProgram.contexts_all true 1 sep pc us src (s_heap s1) K1 It) as Y.
    destruct (unit_contexts sep pc us (s_heap s1)) as [cps h2]. destruct Y as (_ & _ & _ & _ & E). cbn [fst]. rewrite E.
    exists src. split; [exists name; exact St|reflexivity].
  - destruct X as (_ & _ & _ & _ & name & w & N & St). exists name, w. auto.
Qed.
(** The paths are those of the uses clause. *)
Lemma unit_paths_named n sep path text q : In q (unit_paths (recs_at n) sep path text) ->
  exists l, TermUnitSpec.program_uses text l /\ In q (TermUnitSpec.unit_files sep l).
Proof.
  unfold unit_paths. cbn [new_program_context new_chained new_map heap0]. set (h0 := with_ctxs _ _). set (pc := length _).
  pose proof (head_uses n sep path text) as X. cbn [new_program_context new_chained new_map heap0] in X. fold h0 in X. fold pc in X.
  destruct (run Next _) as [x s|e s| | |]; try contradiction.
  destruct (run (parse_program_head (recs_at n) pc) s) as [[pa [us|]] s1|e s1| | |]; try contradiction.
  destruct X as (l & P & ->). eauto.
Qed.
Lemma named_unit_paths n files sep order topo path text pa pc h l : files path = Some text ->
  parse_program (recs_at n) files sep order topo path = ROk (pa, pc) h -> TermUnitSpec.program_uses text l ->
  unit_paths (recs_at n) sep path text = TermUnitSpec.unit_files sep l.
Proof.
  intros F E P. unfold parse_program in E. rewrite F in E. unfold unit_paths.
  pose proof (head_uses n sep path text) as X. destruct (new_program_context heap0 path) as [h0 c].
  destruct (run Next _) as [x s|e s| | |]; try discriminate. unfold parse_program_at in E.
  destruct (run (parse_program_head (recs_at n) c) s) as [[pa1 [us|]] s1|e s1| | |]; try discriminate.
  - destruct X as (l' & P' & ->). now rewrite (ProgramMain.program_uses_once _ _ _ P P').
  - destruct X as (name & w & N & B). destruct P as (name' & B'). destruct (ProgramMain.begins_meet _ _ _ B B') as (x1 & y1 & M).
    cbn [app] in M. injection M as _ M _. now destruct N.
Qed.

(** ** The theorems *)

Theorem program_reads_the_files_it_names :
  forall n files files' sep order topo path text, files path = Some text -> files' path = Some text ->
  (forall l q, TermUnitSpec.program_uses text l -> In q (TermUnitSpec.unit_files sep l) -> files' q = files q) ->
  parse_program (recs_at n) files' sep order topo path = parse_program (recs_at n) files sep order topo path.
Proof.
  intros n files files' sep order topo path text F F' A. apply (program_ext _ files files' sep order topo path text F F').
  intros q J. apply unit_paths_named in J as (l & P & J). eapply A; eauto.
Qed.
Theorem program_reads_only_its_files :
  forall n sep path text, exists paths,
  (forall files files' order topo, files path = Some text -> files' path = Some text ->
     (forall q, In q paths -> files' q = files q) ->
     parse_program (recs_at n) files' sep order topo path = parse_program (recs_at n) files sep order topo path) /\
  (forall files order topo pa pc h, iterates order -> lists_once topo -> files path = Some text ->
     parse_program (recs_at n) files sep order topo path = ROk (pa, pc) h ->
     (forall q, In q paths <-> exists o, In o (h_units h) /\ un_path o = q) /\
     (forall q, In q paths -> files q <> None)).
Proof.
  intros n sep path text. exists (unit_paths (recs_at n) sep path text). split.
  - intros. now apply (program_ext _ files files' sep order topo path text).
  - intros files order topo pa pc h It To F E. eapply program_paths; eauto. apply recs_at_spelled.
Qed.
Theorem other_files_do_not_matter :
  forall n files files' sep order topo path pa pc h, iterates order -> lists_once topo ->
  parse_program (recs_at n) files sep order topo path = ROk (pa, pc) h ->
  files' path = files path -> (forall o, In o (h_units h) -> files' (un_path o) = files (un_path o)) ->
  parse_program (recs_at n) files' sep order topo path = ROk (pa, pc) h.
Proof.
  intros n files files' sep order topo path pa pc h It To E Fp Fu. destruct (files path) as [text|] eqn:F; [|unfold parse_program in E; rewrite F in E; discriminate].
  destruct (program_reads_only_its_files n sep path text) as (paths & A & B). rewrite <- E. apply A; [exact F|exact Fp|].
  intros q J. destruct (B _ _ _ _ _ _ It To F E) as [C _]. apply C in J as (o & J & <-). now apply Fu.
Qed.
Theorem units_come_from_the_files_named :
  forall n files sep order topo path text pa pc h, iterates order -> lists_once topo -> files path = Some text ->
  parse_program (recs_at n) files sep order topo path = ROk (pa, pc) h ->
  (forall l, TermUnitSpec.program_uses text l ->
     forall q, In q (TermUnitSpec.unit_files sep l) <-> exists o, In o (h_units h) /\ un_path o = q) /\
  (forall o, In o (h_units h) -> exists l, TermUnitSpec.program_uses text l /\ In (un_path o) (TermUnitSpec.unit_files sep l)).
Proof.
  intros n files sep order topo path text pa pc h It To F E.
  destruct (program_paths (recs_at n) (recs_at_spelled n) files sep order topo path text pa pc h It To F E) as [A _]. split.
  - intros l P q. rewrite <- (named_unit_paths n files sep order topo path text pa pc h l F E P). apply A.
  - intros o J. apply (unit_paths_named n _ path). apply A. eauto.
Qed.
End WithUnicode.
