(** The order in which Go walks over a map does not matter, where the uses clauses fix the order
    of the units. *)
From Coq Require Import String List NArith Bool Arith Lia Permutation Relation_Operators.
From Verif Require Import ListUtil Runes UnicodeFacts Token Tokenizer CursorFacts Ast Ext ExtSpec Heap Classes MapFacts MapSpec Prog Parser Units UnitSpec SortMain RunFacts CaseSpec
  OfferSpec OfferFacts OfferParse OfferMain OfferAll SameSpec.
From Verif Require IdUnits IdMain IdSpec IdFacts IdParse RefFacts RefParse RefUnits.
Import ListNotations.
Local Open Scope list_scope.

(** ** One order *)

Lemma before_in {A} (l : list A) a b : before l a b -> In a l /\ In b l.
Proof. intros (l1 & l2 & l3 & ->). split; [apply in_or_app; right; now left|]. apply in_or_app. right. right. apply in_or_app. right. now left. Qed.
Lemma before_trans {A} (l : list A) a b c : NoDup l -> before l a b -> before l b c -> before l a c.
Proof.
  intros N X (l1 & l2 & l3 & ->). apply before_prefix in X; [|exact N]. apply before_intro; [exact X|]. right. apply in_or_app. right. now left.
Qed.
Lemma before_head {A} (l : list A) a x : NoDup (a :: l) -> ~ before (a :: l) x a.
Proof. intros N X. exact (before_prefix [] l x a N X). Qed.
Lemma before_tail {A} (l : list A) a x y : x <> a -> before (a :: l) x y -> before l x y.
Proof. intros N ([|b l1] & l2 & l3 & E); injection E as -> E; [congruence|]. exists l1, l2, l3. exact E. Qed.
Lemma one_order {A} (T : A -> A -> Prop) : forall r1 r2, Permutation r1 r2 -> NoDup r1 ->
  (forall u v, In u r1 -> In v r1 -> u = v \/ T u v \/ T v u) ->
  (forall u v, In u r1 -> In v r1 -> T u v -> before r1 v u) -> (forall u v, In u r1 -> In v r1 -> T u v -> before r2 v u) -> r1 = r2.
Proof.
  induction r1 as [|a r1 IH]; intros r2 P N To B1 B2; [symmetry; now apply Permutation_nil in P|].
  destruct r2 as [|b r2]; [apply Permutation_sym, Permutation_nil in P; discriminate|].
  assert (N2 : NoDup (b :: r2)) by (eapply Permutation_NoDup; eauto).
  assert (Jb : In b (a :: r1)) by (eapply Permutation_in; [apply Permutation_sym, P|now left]).
  destruct (To a b (or_introl eq_refl) Jb) as [<-|[X|X]].
  - f_equal. apply Permutation_cons_inv in P. apply NoDup_cons_iff in N as Nn. destruct Nn as [Na Nr].
    assert (K : forall u, In u r1 -> u <> a) by (intros u J ->; contradiction).
    apply IH; auto.
    + intros u v Ju Jv. apply To; now right.
    + intros u v Ju Jv X. eapply before_tail; [|apply B1; [now right|now right|exact X]]. auto.
    + intros u v Ju Jv X. eapply before_tail; [|apply B2; [now right|now right|exact X]]. auto.
  - exfalso. apply (before_head r1 a b N). apply B1; auto. now left.
  - exfalso. apply (before_head r2 b a N2). apply B2; auto. now left.
Qed.

Section WithUnicode.
Context {U : Unicode} {UOK : UnicodeOk U}.

Lemma trans_before {A} (name : A -> gostring) (uses : A -> list gostring) l r : NoDup r ->
  (forall u v, In u l -> In v l -> uses_unit name uses u v -> before r v u) ->
  forall u v, clos_trans _ (uses_among name uses l) u v -> before r v u.
Proof. intros N B u v X. induction X as [u v (Ju & Jv & X)|u v w _ IH1 _ IH2]; [auto|]. eapply before_trans; eauto. Qed.
Lemma sort_one {A} (name : A -> gostring) (uses : A -> list gostring) order topo order' topo' l r :
  iterates order -> toposort_ok topo -> iterates order' -> toposort_ok topo' ->
  distinct_names (map name l) -> Forall (fun u => distinct_names (uses u)) l ->
  (forall u v, In u l -> In v l -> u = v \/ clos_trans _ (uses_among name uses l) u v \/ clos_trans _ (uses_among name uses l) v u) ->
  sort_units name uses order topo l = Some r -> sort_units name uses order' topo' l = Some r.
Proof.
  intros It To It' To' Dn Du Tt E.
  destruct (units_are_sorted _ name uses order topo l It To Dn Du) as [S C]. destruct (units_are_sorted _ name uses order' topo' l It' To' Dn Du) as [S' _].
  assert (Nc : ~ circular name uses l) by (intros X; rewrite (C X) in E; discriminate).
  destruct (S Nc) as (r1 & E1 & P1 & B1). destruct (S' Nc) as (r2 & E2 & P2 & B2). rewrite E in E1. injection E1 as <-. rewrite E2. f_equal. symmetry.
  assert (Nl : NoDup l) by (unfold distinct_names in Dn; now do 2 apply NoDup_map_inv in Dn).
  assert (I1 : forall u, In u r -> In u l) by (intros u; eapply Permutation_in, P1).
  eapply (one_order (clos_trans _ (uses_among name uses l))).
  - eapply Permutation_trans; [exact P1|now apply Permutation_sym].
  - eapply Permutation_NoDup; [apply Permutation_sym, P1|exact Nl].
  - auto.
  - intros u v _ _. apply trans_before; [eapply Permutation_NoDup; [apply Permutation_sym, P1|exact Nl]|exact B1].
  - intros u v _ _. apply trans_before; [eapply Permutation_NoDup; [apply Permutation_sym, P2|exact Nl]|exact B2].
Qed.

Section Files.
Context (R : recs) (RL : recs_let R) (RS : IdParse.recs_spelled R) (RT : RefParse.recs_tied R) (files : gostring -> option (list rune)).

(** ** The uses clause of the interface section stays *)

Definition uses_stay (k : nat) (h h' : heap) : Prop := forall o i, nth_error (h_units h) k = Some o -> un_intf o = Some i ->
  exists o' i', nth_error (h_units h') k = Some o' /\ un_intf o' = Some i' /\ is_uses i' = is_uses i.
Lemma uses_stay_trans k h1 h2 h3 : uses_stay k h1 h2 -> uses_stay k h2 h3 -> uses_stay k h1 h3.
Proof.
  intros A B o i E I. destruct (A o i E I) as (o2 & i2 & E2 & I2 & J2). destruct (B o2 i2 E2 I2) as (o3 & i3 & E3 & I3 & J3).
  exists o3, i3. split; [exact E3|]. split; [exact I3|congruence].
Qed.
Lemma uses_stay_kept k h h' : IdUnits.unit_kept k h h' -> uses_stay k h h'.
Proof.
  intros K o i E I. destruct (K o E) as (o' & E' & T). exists o', i. split; [exact E'|]. split; [|reflexivity].
  unfold IdUnits.tree_same in T. intuition congruence.
Qed.
Lemma uses_stay_put k h u f : (forall o i, un_intf o = Some i -> exists i', un_intf (f o) = Some i' /\ is_uses i' = is_uses i) -> uses_stay k h (put_unit h u f).
Proof.
  intros F o i E I. unfold put_unit. destruct (nth_error (h_units h) u) as [x|] eqn:Eu; [|eauto]. cbn. destruct (Nat.eq_dec k u) as [->|N].
  - rewrite E in Eu. injection Eu as <-. destruct (F o i I) as (i' & I' & J). exists (f o), i'. split; [eapply RefUnits.nth_set_hit, E|auto].
  - rewrite RefUnits.nth_set_miss by exact N. eauto.
Qed.
Lemma intf_keeps p h p' h' : intf_of R p h = ROk p' h' -> IdMain.waits files IdUnits.st1 h p -> forall k, uses_stay k h h'.
Proof.
  intros E W k. unfold intf_of in E. destruct (IdMain.waits_held _ _ _ _ W) as (text & path & _ & H).
  assert (A : IdUnits.after text (up_pst p h) []).
  { destruct H as (_ & o & _ & _ & _ & A). eapply IdUnits.after_sub; [exact A|exact (IdFacts.subseq_end [] [] _ (IdFacts.subseq_refl []))]. }
  assert (Q : IdUnits.wq (process_intf_body R (up_uc p) (up_unit p)) (fun _ s' => uses_stay k h (s_heap s')) (up_pst p h)).
  { unfold process_intf_body. apply IdUnits.wq_bind, IdUnits.wq_heap. intros x h2. cbn [up_pst s_heap s_ctx].
    destruct (unit_intf_uses h (up_unit p)) as [us|]; [|discriminate]. destruct (nth_error (h_units h) (up_unit p)) as [o|]; [|discriminate].
    destruct (import_unit_decls _ _ _) as [h1|] eqn:E1; [|discriminate]. pose proof (IdFacts.ctx_set_objs h1 (up_uc p) [mkDecl (un_ident o) (NUnit (up_unit p))]) as E2.
    destruct (ctx_set _ _ _) as [h2'|h2' i|]; try discriminate. destruct E2 as (X1 & X2 & X3). intros [= _ <-].
    assert (S2 : uses_stay k h h2').
    { apply uses_stay_kept. apply (IdUnits.frame_import None) in E1. 
      apply (IdUnits.fr_units _ _ _ (IdUnits.frame_trans _ _ _ _ E1 (IdUnits.frame_same None h1 h2' X1 X2 X3))). discriminate. }
    unfold parse_unit_intf_body. apply IdUnits.wq_bind. eapply IdUnits.wq_spelled; [apply (IdUnits.i_intf_decls R RS)|apply IdUnits.after_heap, A|].
    intros l s3 A3 (S3 & _ & _). apply IdUnits.wq_heap. intros y h3. cbn [s_heap with_heap] in S3. cbv zeta.
    set (g := put_unit (s_heap s3) _ _). pose proof (IdUnits.frame_new_map None g) as F4. destruct (new_map g) as [g2 a]. cbn [fst] in F4.
    destruct (set_all g2 _ _) as [g3|] eqn:S; [|discriminate]. intros [= _ <-]. apply (IdUnits.frame_set_all None) in S.
    eapply uses_stay_trans; [exact S2|]. eapply (uses_stay_trans _ _ (s_heap s3)).
    - intros o' i' Eo Ei. exists o', i'. rewrite S3. auto.
    - eapply (uses_stay_trans _ _ g); [unfold g; apply uses_stay_put|].
      + intros o5 i5 Ei. exists (mkIntf (is_uses i5) (nonempty l)). split; [|reflexivity]. cbn. now rewrite Ei.
      + eapply uses_stay_trans; [apply uses_stay_kept, (IdUnits.fr_units _ _ _ (IdUnits.frame_trans _ _ _ _ F4 S)); discriminate|].
        apply uses_stay_put. cbn. eauto. }
  unfold IdUnits.wq in Q. destruct (run _ _) as [a s| | | |]; cbn [on_parser rbind snd] in E; try discriminate. injection E as <- <-. exact Q.
Qed.
Lemma intf_pass_keeps : forall l h l' h', Forall (IdMain.waits files IdUnits.st1 h) l -> NoDup (map up_unit l) -> each_of (intf_of R) l h = ROk l' h' ->
  forall k, uses_stay k h h'.
Proof.
  induction l as [|p l IH]; intros h l' h' W N; cbn [each_of].
  - intros [= _ <-] k o i E I. eauto.
  - inversion W as [|? ? Wp Wl]; subst. cbn [map] in N. apply NoDup_cons_iff in N as [Np Nl].
    destruct (intf_of R p h) as [p1 h1| | | |] eqn:E; cbn [rbind]; try discriminate. destruct (IdMain.step_intf R RS files _ _ _ _ E Wp) as (U1 & F1 & W1).
    destruct (each_of _ l h1) as [l1 h2| | | |] eqn:E2; cbn [rbind]; try discriminate. intros [= _ <-] k.
    eapply uses_stay_trans; [eapply intf_keeps; eauto|]. eapply (IH h1); [|exact Nl|exact E2].
    rewrite Forall_forall in Wl |- *. intros q J. eapply IdMain.waits_many; [apply IdUnits.tree1|apply IdMain.frame_many, F1| |auto].
    intros [X|[]]. apply Np. rewrite X. now apply in_map.
Qed.
(** ** After the units *)

Lemma load_tail sep order topo pc pa us h h' cps h1 ps h2 sorted sorted1 h3 sorted2 h4 : load_units R files sep order topo pc pa us h = ROk tt h' ->
  unit_contexts sep pc us h = (cps, h1) -> each_of (load_unit R files pc) cps h1 = ROk ps h2 ->
  sort_units (up_name h2) (up_uses h2) order topo ps = Some sorted -> each_of (intf_of R) sorted h2 = ROk sorted1 h3 ->
  each_of (impl_of R) sorted1 h3 = ROk sorted2 h4 -> IdUnits.uses_kept h4 h'.
Proof.
  intros E Ec El Es E3 E4. unfold load_units in E. rewrite Ec, El in E. cbn [rbind] in E. rewrite Es, E3 in E. cbn [rbind] in E. rewrite E4 in E. cbn [rbind] in E. revert E.
  pose proof (IdUnits.frame_new_map None h4) as F5. destruct (new_map h4) as [h5 um]. cbn [fst] in F5.
  destruct (name_units us (DImpl um) _ h5) as [y h6| | | |] eqn:E6; cbn [rbind]; try discriminate. apply IdMain.name_all in E6.
  pose proof (IdUnits.frame_new_map None h6) as F7. destruct (new_map h6) as [h7 local]. cbn [fst] in F7.
  destruct (nth_error (h_ctxs h7) pc) as [co|]; [|discriminate]. destruct (nth_error (h_progs h7) pa) as [po|] eqn:Np; [|discriminate]. cbv zeta.
  set (h8 := ctx_put_map h7 pc _). pose proof (IdUnits.frame_put_map None h7 pc (DComposite ([DImpl local; DImpl um] ++ maps_reverse (units_maps h7 (map up_unit ps)) ++ [cx_map co]))) as F8. fold h8 in F8.
  set (h9 := with_progs _ h8). pose proof (IdFacts.map_set_objs h9 (DImpl local) [mkDecl (pr_ident po) (NProgram pa)]) as X.
  pose proof (IdUnits.fr_uses _ _ _ (IdUnits.frame_trans _ _ _ _ F5 (IdUnits.frame_trans _ _ _ _ E6 (IdUnits.frame_trans _ _ _ _ F7 F8)))) as K.
  destruct (map_set h9 _ _) as [h10|h10 i|]; [| |discriminate]; intros [= <-]; destruct X as (_ & X & _); intros a o No; destruct (K a o No) as (o' & N' & I); exists o'; rewrite X; auto.
Qed.

(** ** Names at the end are the names before *)

Lemma names_stay h h' l : IdUnits.uses_kept h h' -> IdUnits.listed h l -> item_names h' l = map (uses_name h) l.
Proof.
  intros K L. apply map_ext_in. intros a J. unfold uses_name. specialize (L a J). destruct (nth_error (h_uses h) a) as [o|] eqn:E; [|congruence].
  destruct (K a o E) as (o' & -> & -> & _). reflexivity.
Qed.
Lemma load_units_same sep order topo order' topo' pc pa us ns h h' : iterates order -> toposort_ok topo -> iterates order' -> toposort_ok topo' ->
  (forall k, nth_error (h_units h) k = None) -> RefFacts.good ns h -> well h ->
  load_units R files sep order topo pc pa us h = ROk tt h' ->
  distinct_names (map (fun o => i_name (un_ident o)) (h_units h')) -> units_in_line h' ->
  load_units R files sep order' topo' pc pa us h = ROk tt h'.
Proof.
  intros It To It' To' Em Gd We E Dn Li.
  destruct (load_units_parts _ _ _ _ _ _ _ _ _ _ E) as (cps & h1 & ps & h2 & sorted & sorted1 & h3 & sorted2 & h4 & Ec & El & Es & E3 & E4 & St & Un).
  pose proof (load_tail _ _ _ _ _ _ _ _ _ _ _ _ _ _ _ _ _ E Ec El Es E3 E4) as K5.
  cut (sort_units (up_name h2) (up_uses h2) order' topo' ps = Some sorted).
  { intros Es'. unfold load_units in E |- *. rewrite Ec, El in *. cbn [rbind] in *. rewrite Es in E. rewrite Es'. exact E. }
  destruct (IdMain.contexts files _ _ _ _ _ _ Ec) as (F1 & _ & Hp).
  assert (Em1 : forall k, nth_error (h_units h1) k = None) by (intros k; apply (IdUnits.fr_back _ _ _ F1); [discriminate|apply Em]).
  assert (A1 : IdMain.all_fit files h1) by (intros k o No; rewrite Em1 in No; discriminate).
  destruct (IdMain.load_all _ _ _ _ _ _ _ El Hp A1) as (W2 & D2 & _ & _ & A2).
  destruct (load_covers _ _ _ _ _ _ _ El Hp A1) as [C2 U2].
  pose proof (heads_kept _ _ RT _ _ _ _ _ _ _ _ _ _ _ _ _ _ _ _ _ Gd Ec El Es E3 E4 Un) as K.
  assert (Nm : forall p, In p ps -> exists o, nth_error (h_units h') (up_unit p) = Some o /\ up_name h2 p = i_name (un_ident o)).
  { intros p J. rewrite Forall_forall in W2. destruct (W2 p J) as (? & ? & o & _ & No & _). destruct (K _ _ No) as (o' & No' & Io).
    exists o'. split; [exact No'|]. unfold up_name, unit_name. now rewrite No, Io. }
  assert (Dp : distinct_names (map (up_name h2) ps)).
  { unfold distinct_names. rewrite map_map. apply IdMain.nodup_map_on; [eapply NoDup_map_inv, D2|]. intros p q Jp Jq X.
    apply (IdMain.map_inj_on up_unit ps); auto. destruct (Nm p Jp) as (op & Np & Ip). destruct (Nm q Jq) as (oq & Nq & Iq). rewrite Ip, Iq in X.
    unfold distinct_names in Dn. rewrite map_map, NoDup_nth_error in Dn. apply Dn.
    - rewrite map_length. apply nth_error_Some. congruence.
    - rewrite (map_nth_error _ _ _ Np), (map_nth_error _ _ _ Nq). now f_equal. }
  assert (Du : Forall (fun p => distinct_names (up_uses h2 p)) ps).
  { rewrite Forall_forall in U2 |- *. intros p J. destruct (U2 p J) as (l & X & D). unfold up_uses. now rewrite X. }
  destruct (units_are_sorted _ (up_name h2) (up_uses h2) order topo ps It To Dp Du) as [So Ci].
  assert (P : Permutation sorted ps).
  { destruct So as (r & Er & P & _); [intros C; rewrite (Ci C) in Es; discriminate|]. rewrite Es in Er. injection Er as <-. exact P. }
  assert (W : Forall (IdMain.waits files IdUnits.st1 h2) sorted).
  { rewrite Forall_forall in W2 |- *. intros p J. apply W2. eapply Permutation_in; eauto. }
  assert (Nd : NoDup (map up_unit sorted)) by (eapply Permutation_NoDup; [apply Permutation_map, Permutation_sym, P|exact D2]).
  destruct (IdMain.pass _ _ _ _ (IdMain.step_intf _ RS _) IdUnits.tree1 IdUnits.tree2 (fun path o q => proj1 q) _ _ _ _ W Nd A2 E3) as (U3 & W3 & M3 & A3).
  destruct (IdMain.pass _ _ _ _ (IdMain.step_impl _ RS _) IdUnits.tree2 IdUnits.tree_path (fun path o q => q) _ _ _ _ W3 ltac:(rewrite U3; exact Nd) A3 E4) as (_ & _ & M4 & _).
  pose proof (step_back _ _ _ _ (IdMain.step_intf _ RS _) IdUnits.tree1 _ _ _ _ W Nd E3) as B3.
  pose proof (step_back _ _ _ _ (IdMain.step_impl _ RS _) IdUnits.tree2 _ _ _ _ W3 ltac:(rewrite U3; exact Nd) E4) as B4.
  pose proof (intf_pass_keeps _ _ _ _ W Nd E3) as K3.
  assert (We2 : well h2).
  { eapply well_settled; [exact (each_settled _ (fun a h b h' => load_settled R files pc a h b h') _ _ _ _ El)|].
    eapply well_settled; [|exact We]. pose proof (settled_contexts none sep pc us h) as X. now rewrite Ec in X. }
  destruct (each_intf _ RL _ _ _ _ E3 We2) as (_ & O3 & _).
  pose proof (settled_trans _ _ _ _ (each_settled _ (impl_settled R RL) _ _ _ _ E4) St) as S3.
  assert (Ku : IdUnits.uses_kept h2 h').
  { intros a o No. destruct (proj1 M3 a o No) as (o3 & N3 & I3 & J3). destruct (proj1 M4 a o3 N3) as (o4 & N4 & I4 & J4). destruct (K5 a o4 N4) as (o5 & N5 & I5 & J5).
    exists o5. split; [exact N5|]. split; congruence. }
  (* the uses clauses *)
  assert (Us : forall p, In p ps -> interface_uses h' (up_unit p) = up_uses h2 p).
  { intros p J. rewrite Forall_forall in W2. destruct (W2 p J) as (? & ? & o & _ & No & [Lo _] & (_ & (l & Io) & _) & _).
    destruct (K3 (up_unit p) o _ No Io) as (o3 & i3 & N3 & I3 & J3).
    destruct (O3 p) as (a & M & i & Sh & _); [eapply Permutation_in; [apply Permutation_sym, P|exact J]|].
    pose proof (st_shape _ _ _ S3 (up_unit p) (fun x => x)) as Sx. rewrite Sh in Sx.
    assert (i = i3) as ->. { unfold shape in Sh. rewrite N3 in Sh. destruct (un_map o3); congruence. }
    unfold shape in Sx. unfold interface_uses. destruct (nth_error (h_units h') (up_unit p)) as [o'|]; [|discriminate].
    assert (un_intf o' = Some i3) as -> by (destruct (un_map o'); congruence). rewrite J3. cbn [is_uses].
    unfold up_uses, unit_intf_uses. rewrite No, Io. cbn [is_uses]. destruct l as [l|]; [|reflexivity]. cbn [or_nil].
    apply names_stay; [exact Ku|]. exact (Lo _ Io). }
  assert (Nh : forall p, In p ps -> name_of_unit h' (up_unit p) = up_name h2 p).
  { intros p J. destruct (Nm p J) as (o & No & ->). unfold name_of_unit. now rewrite No. }
  assert (Cov : forall k, In k (seq 0 (length (h_units h'))) -> exists p, In p ps /\ up_unit p = k).
  { intros k J. apply in_seq in J. assert (Nk : nth_error (h_units h') k <> None) by (apply nth_error_Some; lia). rewrite Un in Nk.
    assert (N2 : nth_error (h_units h2) k <> None) by (intros X; apply Nk, B4, B3, X).
    destruct (C2 k N2) as [X|J2]; [now rewrite Em1 in X|]. apply in_map_iff in J2 as (p & <- & J2). eauto. }
  assert (Tr : forall u v, clos_trans nat (uses_among (name_of_unit h') (interface_uses h') (seq 0 (length (h_units h')))) u v ->
     In u (seq 0 (length (h_units h'))) /\ In v (seq 0 (length (h_units h'))) /\
     forall p q, In p ps -> In q ps -> up_unit p = u -> up_unit q = v -> clos_trans _ (uses_among (up_name h2) (up_uses h2) ps) p q).
  { intros u v X. induction X as [u v (Ju & Jv & X)|u v w _ (Ju & Jv & IH1) _ (_ & Jw & IH2)].
    - split; [exact Ju|]. split; [exact Jv|]. intros p q Jp Jq <- <-. apply t_step. split; [exact Jp|]. split; [exact Jq|].
      destruct X as (n & Jn & S). exists n. rewrite Us in Jn by exact Jp. rewrite Nh in S by exact Jq. auto.
    - split; [exact Ju|]. split; [exact Jw|]. intros p q Jp Jq Ep Eq. destruct (Cov v Jv) as (m & Jm & Em'). eapply t_trans; [apply (IH1 p m)|apply (IH2 m q)]; auto. }
  apply (sort_one _ _ order topo order' topo'); auto. intros p q Jp Jq.
  assert (Rg : forall p, In p ps -> In (up_unit p) (seq 0 (length (h_units h')))).
  { intros r J. destruct (Nm r J) as (o & No & _). apply in_seq. split; [lia|]. cbn. apply nth_error_Some. congruence. }
  destruct (Nat.eq_dec (up_unit p) (up_unit q)) as [X|X].
  - left. now apply (IdMain.map_inj_on up_unit ps).
  - right. destruct (Li _ _ (Rg p Jp) (Rg q Jq) X) as [Y|Y]; apply Tr in Y as (_ & _ & Y); [left|right]; now apply Y.
Qed.
Lemma program_same sep order topo order' topo' path pa pc h : iterates order -> toposort_ok topo -> iterates order' -> toposort_ok topo' ->
  parse_program R files sep order topo path = ROk (pa, pc) h ->
  distinct_names (map (fun o => i_name (un_ident o)) (h_units h)) -> units_in_line h ->
  parse_program R files sep order' topo' path = ROk (pa, pc) h.
Proof.
  intros It To It' To'. unfold parse_program. destruct (files path) as [text|] eqn:F; [|discriminate].
  assert (H0 : h_units (fst (new_program_context heap0 path)) = []) by reflexivity.
  assert (W0 : well (fst (new_program_context heap0 path))).
  { split; [|intros u; left; now destruct u]. intros o a [<-|[]] [= <-]. cbn. lia. }
  pose proof (RefUnits.good_program_context path) as G0.
  destruct (new_program_context heap0 path) as [h0 c]. cbn [fst] in H0, W0, G0.
  pose proof (IdUnits.wq_next text [] (fun _ s' => IdUnits.after text s' [] /\ s_heap s' = h0) _ (IdMain.start_after text c h0) (fun _ s' A E => conj A E)) as X.
  unfold IdUnits.wq in X. destruct (run Next _) as [o0 s| | | |] eqn:E0; try discriminate. destruct X as [A0 Eh].
  assert (V0 : exists n0, RefFacts.Inv n0 s).
  { set (s0 := mkPst _ None c [] h0) in E0. assert (V : RefFacts.Inv [] s0) by (split; [exact G0|intros ? ? []]).
    pose proof (RefUnits.tied_run _ [] s0 (RefFacts.tied_next []) V) as X. rewrite E0 in X. destruct X as (n0 & _ & V0). eauto. }
  destruct V0 as (n0 & V0).
  unfold parse_program_at. pose proof (IdMain.q_program_head R files c _ _ A0) as X. unfold IdUnits.wq in X.
  pose proof (RefUnits.tied_run _ n0 s (RefUnits.t_parse_program_head R [] c) V0) as Y.
  pose proof (l_program_head R c) as L1.
  destruct (run (parse_program_head R c) s) as [[pa1 l] s1| | | |] eqn:E1; cbn [on_parser rbind]; try discriminate. cbn [fst snd] in X.
  destruct X as (o1 & _ & _ & _ & F1 & A1). destruct Y as (n1 & _ & V1). apply (L1 none) in E1.
  assert (W1 : well (s_heap s1)) by (eapply well_settled; [exact E1|rewrite Eh; exact W0]).
  assert (Em : forall k, nth_error (h_units (s_heap s1)) k = None).
  { intros k. apply (IdUnits.fr_back _ _ _ F1); [discriminate|]. rewrite Eh, H0. now destruct k. }
  destruct (match l with Some us => load_units R files sep order topo c pa1 us (s_heap s1) | None => ROk tt (s_heap s1) end) as [[] h2| | | |] eqn:E2; cbn [rbind]; try discriminate.
  destruct (run (parse_program_rest R pa1 l) _) as [pa2 s3| | | |] eqn:E3; cbn [on_parser rbind fst snd]; try discriminate. intros [= -> -> <-] Dn Li.
  assert (U3 : h_units (s_heap s3) = h_units h2 /\ h_uses (s_heap s3) = h_uses h2).
  { assert (A2 : IdUnits.after text (with_heap h2 s1) []) by (apply IdUnits.after_heap; eapply IdUnits.after_sub; [exact A1|exact (IdFacts.subseq_end [] [] _ (IdFacts.subseq_refl []))]).
    assert (Q : IdUnits.wq (parse_program_rest R pa1 l) (fun _ s' => h_units (s_heap s') = h_units h2 /\ h_uses (s_heap s') = h_uses h2) (with_heap h2 s1)).
    { unfold parse_program_rest. apply IdUnits.wq_bind. eapply IdUnits.wq_spelled; [apply (IdParse.i_parse_block R RS)|exact A2|].
      intros b s4 A4 (S1 & S2 & _). apply IdUnits.wq_bind, IdUnits.wq_heap. intros x h'. destruct (nth_error (h_progs (s_heap s4)) pa1); [|discriminate]. intros [= _ <-].
      apply IdUnits.wq_bind. eapply (IdUnits.wq_expect text); [apply IdUnits.after_heap; exact A4|]. intros t A5 _. apply IdUnits.wq_ret. split; [exact S1|exact S2]. }
    unfold IdUnits.wq in Q. rewrite E3 in Q. exact Q. }
  destruct U3 as [U3 V3]. rewrite U3 in Dn.
  assert (Li2 : units_in_line h2).
  { unfold units_in_line in Li |- *.
    assert (name_of_unit (s_heap s3) = name_of_unit h2) as Y1 by (unfold name_of_unit; now rewrite U3).
    assert (interface_uses (s_heap s3) = interface_uses h2) as Y2 by (unfold interface_uses, item_names; now rewrite U3, V3).
    rewrite U3, Y1, Y2 in Li. exact Li. }
  assert (E2' : match l with Some us => load_units R files sep order' topo' pc pa1 us (s_heap s1) | None => ROk tt (s_heap s1) end = ROk tt h2).
  { destruct l as [us|]; [|exact E2]. eapply load_units_same; [exact It|exact To|exact It'|exact To'|exact Em|apply V1|exact W1|exact E2|exact Dn|exact Li2]. }
  rewrite E2'. cbn [rbind]. rewrite E3. reflexivity.
Qed.
End Files.

(** ** The theorems *)

Theorem order_of_maps_does_not_matter :
  forall n files sep order topo order' topo' path pa pc h, iterates order -> toposort_ok topo -> iterates order' -> toposort_ok topo' ->
  parse_program (recs_at n) files sep order topo path = ROk (pa, pc) h ->
  distinct_names (map (fun o => i_name (un_ident o)) (h_units h)) -> units_in_line h ->
  parse_program (recs_at n) files sep order' topo' path = ROk (pa, pc) h.
Proof.
  intros n files. exact (program_same _ (recs_at_let n) (IdParse.recs_at_spelled n) (RefParse.recs_at_tied n) files).
Qed.
End WithUnicode.

Definition two_wrong (path : gostring) : option (list rune) :=
  if runes_equal path (rs "p.dpr") then Some (rs "program p; uses A in 'a.pas', B in 'b.pas'; begin end.") else
  if runes_equal path (rs "a.pas") then Some (rs "unit A; interface const X = ; implementation end.") else
  if runes_equal path (rs "b.pas") then Some (rs "unit B; interface var : Integer; implementation end.") else None.
Theorem error_depends_on_order_of_maps_refuted :
  exists (U : Unicode) n files sep order order' topo path e h e' h', UnicodeOk U /\
  iterates order /\ iterates order' /\ toposort_ok topo /\
  parse_program (recs_at n) files sep order topo path = RErr e h /\
  parse_program (recs_at n) files sep order' topo path = RErr e' h' /\ e <> e'.
Proof.
  set (r := @parse_program latin1 (@recs_at latin1 40) two_wrong 47%N (fun m => m) (@some_toposort) (rs "p.dpr")).
  set (r' := @parse_program latin1 (@recs_at latin1 40) two_wrong 47%N (@rev _) (@some_toposort) (rs "p.dpr")).
  assert (X : match r, r' with RErr (EAt f _ _) _, RErr (EAt f' _ _) _ => f = rs "b.pas" /\ f' = rs "a.pas" | _, _ => False end) by (vm_compute; split; reflexivity).
  destruct r as [|e h| | |] eqn:Er; try contradiction. destruct r' as [|e' h'| | |] eqn:Er'; [destruct e; contradiction| |destruct e; contradiction..].
  exists latin1, 40, two_wrong, 47%N, (fun m => m), (@rev _), (@some_toposort), (rs "p.dpr"), e, h, e', h'.
  split; [exact latin1_ok|]. split; [intros m; apply Permutation_refl|]. split; [intros m; apply Permutation_rev|].
  split; [exact some_toposort_ok|]. split; [exact Er|]. split; [exact Er'|].
  intros <-. destruct e; try contradiction. destruct X as [-> X]. discriminate X.
Qed.
