(** Proofs about types and classes. *)
From Coq Require Import List NArith Bool Arith Lia Relations.
From Verif Require Import Runes UnicodeFacts Token LexShape Ast Ext ExtMain Heap MapSpec MapFacts Classes ClassSpec.
Import ListNotations.

Section WithUnicode.
Context {U : Unicode}.

(** ** Types *)

Lemma names_ref_type h ti t : names h ti t <-> ref_type h ti = Some t.
Proof.
  unfold names, ref_type, ref_of. split.
  - intros (d & i & -> & ->). reflexivity.
  - destruct nth_error as [[d|]|] eqn:E; try discriminate.
    destruct deref as [[i n]|] eqn:D; cbn; try discriminate.
    destruct n; try discriminate. intros [= ->]. exists d, i. auto.
Qed.

Lemma type_is_mono f : forall f' h q t b, f <= f' -> type_is f h q t = Some b -> type_is f' h q t = Some b.
Proof.
  induction f as [|f IH]; intros f' h q t b L E; [discriminate|].
  destruct f' as [|f']; [lia|].
  cbn [type_is] in *. destruct t; auto; try (destruct ref_type; [apply (IH f'); [lia|]|]; auto; fail).
  destruct q; auto; apply (IH f'); auto; lia.
Qed.

Theorem answers_unique :
  forall h t q b b', answers h t q b -> answers h t q b' -> b = b'.
Proof.
  intros h t q b b' [f E] [f' E'].
  apply (type_is_mono _ (max f f')) in E; [|lia]. apply (type_is_mono _ (max f f')) in E'; [|lia]. congruence.
Qed.

Lemma answers_step h ti t q b : names h ti t -> answers h (TId ti) q b <-> answers h t q b.
Proof.
  intros N. apply names_ref_type in N. split.
  - intros [[|f] E]; [discriminate|]. cbn [type_is] in E. rewrite N in E. exists f. exact E.
  - intros [f E]. exists (S f). cbn [type_is]. rewrite N. exact E.
Qed.

Theorem alias_answers_as_its_target :
  forall h ti t q b, leads_to h ti t -> (answers h (TId ti) q b <-> answers h t q b).
Proof.
  intros h ti t q b L. induction L as [ti t N|ti ti' t N L IH].
  - now apply answers_step.
  - rewrite <- IH. now apply answers_step.
Qed.

Theorem unresolved_answers_no :
  forall h ti q b, (forall t, ~ names h ti t) -> (answers h (TId ti) q b <-> b = false).
Proof.
  intros h ti q b N.
  assert (E : ref_type h ti = None)
    by (destruct ref_type eqn:E; [apply names_ref_type in E; now apply N in E|reflexivity]).
  split.
  - intros [[|f] A]; [discriminate|]. cbn [type_is] in A. rewrite E in A. congruence.
  - intros ->. exists 1. cbn [type_is]. now rewrite E.
Qed.

Theorem shapes_answer_for_themselves :
  forall h t q b b', shape_says t q = Some b -> (answers h t q b' <-> b' = b).
Proof.
  intros h t q b b' E.
  assert (A : forall f, type_is (S f) h q t = Some b).
  { intros f. cbn [type_is]. destruct t; try discriminate; cbn [shape_says] in E; try congruence.
    destruct k, q; exact E. }
  split; [intros [[|f] F]; [discriminate|]; rewrite A in F; congruence|intros ->; exists 1; apply A].
Qed.

Theorem sets_and_files_answer_as_their_base :
  forall h p t ti q b,
    (q = QSimple \/ q = QOrdinal -> (answers h (TSet p t) q b <-> answers h t q b)) /\
    (q <> QSimple -> q <> QOrdinal -> (answers h (TSet p t) q b <-> b = false)) /\
    (answers h (TFile p ti) q b <-> answers h (TId ti) q b).
Proof.
  intros h p t ti q b. repeat split.
  - intros [[|f] E]; [discriminate|]. exists f. destruct H; subst q; exact E.
  - intros [f E]. exists (S f). destruct H; subst q; exact E.
  - intros [[|f] E]; [discriminate|]. destruct q; cbn in E; congruence.
  - intros ->. exists 1. destruct q; try congruence; reflexivity.
  - intros [[|f] E]; [discriminate|]. exists (S f). exact E.
  - intros [[|f] E]; [discriminate|]. exists (S f). exact E.
Qed.

Theorem classification_returns :
  forall h t, Acc (looks_at h) t -> forall q, exists b, answers h t q b.
Proof.
  intros h t A. induction A as [t _ IH]. intros q.
  assert (ID : forall ti, (forall t', names h ti t' -> exists b, answers h t' q b) ->
    exists b, answers h (TId ti) q b).
  { intros ti K. destruct (ref_type h ti) as [t'|] eqn:E.
    - apply names_ref_type in E. destruct (K t' E) as [b B]. exists b. now apply (answers_step h ti t').
    - exists false, 1. cbn [type_is]. now rewrite E. }
  destruct t; try (eexists; exists 1; reflexivity).
  - apply ID. intros t' N. apply IH. now constructor.
  - destruct q; try (exists false, 1; reflexivity);
      match goal with |- exists b, answers _ (TSet _ ?t') ?q _ =>
        destruct (IH t' (la_set h _ t') q) as [b [f E]]; exists b, (S f); exact E end.
  - destruct (ID t) as [b [[|f] E]]; [|discriminate|exists b, (S f); exact E].
    intros t' N. apply IH. now constructor.
Qed.

Theorem circular_alias_never_answers :
  forall h ti,
    (forall ti', clos_refl_trans _ (fun a b => names h a (TId b)) ti ti' -> exists ti'', names h ti' (TId ti'')) ->
    forall q b, ~ answers h (TId ti) q b.
Proof.
  intros h ti K q b [f E]. revert ti K E. induction f as [|f IH]; intros ti K E; [discriminate|].
  destruct (K ti (rt_refl _ _ _)) as [ti' N]. cbn [type_is] in E.
  pose proof N as R. apply names_ref_type in R. rewrite R in E.
  apply (IH ti'); [|exact E]. intros t R'. apply K. eapply rt_trans; [apply rt_step; exact N|exact R'].
Qed.

(** ** Classes *)

Lemma superclass_parent h c c' : superclass h c c' <-> parent_class h (fst c) = Some c'.
Proof.
  unfold superclass, parent_class. destruct c as [her mem], c' as [her' mem']. cbn [fst snd]. split.
  - intros (ti & more & -> & N). apply names_ref_type in N. now rewrite N.
  - destruct her as [[|ti more]|]; try discriminate.
    destruct ref_type as [t|] eqn:E; [|discriminate].
    destruct t; try discriminate. intros [= -> ->]. exists ti, more. split; [reflexivity|]. now apply names_ref_type.
Qed.
Lemma no_superclass_parent h c : (forall c', ~ superclass h c c') -> parent_class h (fst c) = None.
Proof.
  intros N. destruct parent_class as [c'|] eqn:E; [|reflexivity].
  apply superclass_parent in E. now apply N in E.
Qed.

Lemma to_lower_twice (LL : forall r, u_lower (u_lower r) = u_lower r) s : to_lower (to_lower s) = to_lower s.
Proof. unfold to_lower. rewrite map_map. now apply map_ext. Qed.

Lemma find_app {A} (f : A -> bool) l l' : find f (l ++ l') = match find f l with Some x => Some x | None => find f l' end.
Proof. induction l as [|x l IH]; cbn; [reflexivity|]. destruct (f x); auto. Qed.

Lemma runes_equal_sym a b : runes_equal a b = runes_equal b a.
Proof.
  destruct (runes_equal b a) eqn:E.
  - apply runes_equal_eq in E. subst. apply runes_equal_eq. reflexivity.
  - destruct (runes_equal a b) eqn:F; [|reflexivity]. apply runes_equal_eq in F. subst.
    enough (runes_equal b b = true) by congruence. now apply runes_equal_eq.
Qed.

Lemma named_lower name d : named name d = runes_equal (to_lower (i_name (d_ident d))) (to_lower name).
Proof. unfold named, same_nameb. apply runes_equal_sym. Qed.

Section Lowered.
Hypothesis LL : forall r, u_lower (u_lower r) = u_lower r.

Lemma find_name_find {A} (nm : A -> gostring) l name :
  find_name nm l (to_lower name) = find (fun x => runes_equal (to_lower (nm x)) (to_lower name)) l.
Proof.
  induction l as [|x l IH]; cbn [find_name find]; [reflexivity|].
  rewrite (to_lower_twice LL). destruct runes_equal; auto.
Qed.
Lemma decls_find_find l name : decls_find l (to_lower name) = find (named name) l.
Proof.
  unfold decls_find. rewrite find_name_find. induction l as [|x l IH]; cbn; [reflexivity|].
  rewrite named_lower. destruct runes_equal; auto.
Qed.
Lemma find_map_ident (ids : list ident) n name :
  find (named name) (map (fun i => mkDecl i n) ids) =
  option_map (fun i => mkDecl i n) (ident_list_find ids (to_lower name)).
Proof.
  unfold ident_list_find. rewrite find_name_find. induction ids as [|x l IH]; cbn; [reflexivity|].
  rewrite named_lower. cbn. destruct runes_equal; cbn; auto.
Qed.

Definition lift {A} (o : option A) : option (option A) := match o with Some x => Some (Some x) | None => None end.
Lemma find_field_find fs name :
  find_field fs (to_lower name) =
  lift (find (named name) (flat_map (fun f => map (fun i => mkDecl i NField) (fst f)) fs)).
Proof.
  induction fs as [|[ids t] fs IH]; [reflexivity|]. cbn [find_field flat_map fst].
  rewrite find_app, decls_find_find, !find_map_ident, IH.
  destruct ident_list_find; reflexivity.
Qed.
Lemma find_method_find ms name :
  find_method ms (to_lower name) = lift (find (named name) (map (fun m => mkDecl (method_ident m) NMethod) ms)).
Proof.
  induction ms as [|m ms IH]; [reflexivity|]. cbn [find_method map find].
  rewrite named_lower, decls_find_find. cbn [find d_ident]. rewrite named_lower. cbn [d_ident].
  rewrite IH. destruct runes_equal; reflexivity.
Qed.
Lemma find_prop_find ms name :
  find_prop ms (to_lower name) = lift (find (named name) (map (fun m => mkDecl (prop_ident m) NProp) ms)).
Proof.
  induction ms as [|m ms IH]; [reflexivity|]. cbn [find_prop map find].
  rewrite named_lower, decls_find_find. cbn [find d_ident]. rewrite named_lower. cbn [d_ident].
  rewrite IH. destruct runes_equal; reflexivity.
Qed.
Lemma find_in_sections_find private ss name :
  find_in_sections private ss (to_lower name) =
  lift (find (named name) (flat_map section_members (if private then ss else filter section_open ss))).
Proof.
  induction ss as [|[v fs ms ps] ss IH]; [destruct private; reflexivity|].
  cbn [find_in_sections]. rewrite find_field_find, find_method_find, find_prop_find, IH.
  assert (K : forall rest, lift (find (named name) (section_members (ClassSection v fs ms ps) ++ rest)) =
    match lift (find (named name) (flat_map (fun f => map (fun i => mkDecl i NField) (fst f)) fs)) with
    | Some r => Some r
    | None =>
      match lift (find (named name) (map (fun m => mkDecl (method_ident m) NMethod) ms)) with
      | Some r => Some r
      | None =>
        match lift (find (named name) (map (fun m => mkDecl (prop_ident m) NProp) ps)) with
        | Some r => Some r
        | None => lift (find (named name) rest)
        end
      end
    end).
  { intros rest. cbn [section_members]. rewrite !find_app.
    destruct (find _ (flat_map _ fs)); [reflexivity|].
    destruct (find _ (map _ ms)); [reflexivity|].
    destruct (find _ (map _ ps)); reflexivity. }
  destruct private.
  - cbn [negb andb flat_map]. now rewrite K.
  - destruct v; cbn [negb andb is_private filter section_open flat_map]; try (now rewrite K). reflexivity.
Qed.

Definition searched (c : cls) (private : bool) : list decl := if private then all_members c else open_members c.
Lemma find_in_class c private name :
  find_in_sections private (sections (snd c)) (to_lower name) = lift (find (named name) (searched c private)).
Proof.
  rewrite find_in_sections_find. unfold searched, all_members, open_members, sections.
  destruct (snd c), private; reflexivity.
Qed.

Lemma find_member_mono f : forall f' h her mem name p r, f <= f' ->
  find_member f h her mem name p = Some r -> find_member f' h her mem name p = Some r.
Proof.
  induction f as [|f IH]; intros f' h her mem name p r L E; [discriminate|].
  destruct f' as [|f']; [lia|]. cbn [find_member] in *.
  destruct find_in_sections; auto. destruct parent_class as [[her' mem']|]; auto.
  apply (IH f'); auto; lia.
Qed.
Lemma finds_member_fun h c name p r r' : finds_member h c name p r -> finds_member h c name p r' -> r = r'.
Proof.
  intros [f E] [f' E'].
  apply (find_member_mono _ (max f f')) in E; [|lia]. apply (find_member_mono _ (max f f')) in E'; [|lia]. congruence.
Qed.

Lemma find_member_lineage h c l name : lineage h c l -> forall private,
  finds_member h c name private (find (named name) (searched c private ++ flat_map open_members l)).
Proof.
  intros L. induction L as [c N|c c' l S L IH]; intros private.
  - exists 1. cbn [find_member]. rewrite find_in_class, (no_superclass_parent _ _ N).
    cbn [flat_map]. rewrite app_nil_r. destruct find; reflexivity.
  - destruct (IH false) as [f E]. exists (Datatypes.S f). cbn [find_member].
    rewrite find_in_class, find_app. apply superclass_parent in S. rewrite S.
    destruct (find _ (searched c private)); [reflexivity|].
    cbn [lift]. destruct c'. exact E.
Qed.
End Lowered.

Theorem member_lookup :
  forall h c ancestors name private r,
    (forall r, u_lower (u_lower r) = u_lower r) ->
    lineage h c ancestors ->
    (finds_member h c name private r <->
     r = find (named name)
           ((if private then all_members c else open_members c) ++ flat_map open_members ancestors)).
Proof.
  intros h c l name private r LL L.
  pose proof (find_member_lineage LL h c l name L private) as F. split.
  - intros G. eapply finds_member_fun; eassumption.
  - intros ->. exact F.
Qed.

Lemma prop_in_list_find ps name : prop_in_list ps (to_lower name) =
  find (fun p => same_nameb name (i_name (prop_ident p))) ps.
Proof.
  induction ps as [|p ps IH]; [reflexivity|]. cbn [prop_in_list find]. unfold same_nameb at 1.
  rewrite runes_equal_sym. destruct runes_equal; auto.
Qed.
Lemma prop_in_class c name : prop_in_sections (sections (snd c)) (to_lower name) =
  find (fun p => same_nameb name (i_name (prop_ident p))) (all_props c).
Proof.
  unfold all_props, sections. destruct (snd c) as [ss|]; [|reflexivity].
  induction ss as [|[v fs ms ps] ss IH]; [reflexivity|]. cbn [prop_in_sections flat_map].
  rewrite find_app, prop_in_list_find, IH. destruct find; reflexivity.
Qed.
Lemma find_property_mono f : forall f' h her mem name p r, f <= f' ->
  find_property f h her mem name p = Some r -> find_property f' h her mem name p = Some r.
Proof.
  induction f as [|f IH]; intros f' h her mem name p r L E; [discriminate|].
  destruct f' as [|f']; [lia|]. cbn [find_property] in *.
  destruct prop_in_sections; auto. destruct p; auto. destruct parent_class as [[her' mem']|]; auto.
  apply (IH f'); auto; lia.
Qed.
Theorem property_lookup :
  forall h c ancestors name asc r,
    lineage h c ancestors ->
    (finds_property h c name asc r <->
     r = find (fun p => same_nameb name (i_name (prop_ident p)))
           (all_props c ++ if asc then flat_map all_props ancestors else [])).
Proof.
  intros h c l name asc r L.
  enough (F : finds_property h c name asc (find (fun p => same_nameb name (i_name (prop_ident p)))
           (all_props c ++ if asc then flat_map all_props l else []))).
  { split; [|intros ->; exact F]. intros [f E]. destruct F as [f' E'].
    apply (find_property_mono _ (max f f')) in E; [|lia]. apply (find_property_mono _ (max f f')) in E'; [|lia].
    congruence. }
  induction L as [c N|c c' l S L IH].
  - exists 1. cbn [find_property]. rewrite prop_in_class, find_app, (no_superclass_parent _ _ N).
    destruct find; [reflexivity|]. destruct asc; reflexivity.
  - destruct IH as [f E]. exists (Datatypes.S f). cbn [find_property].
    rewrite prop_in_class, find_app. apply superclass_parent in S. rewrite S.
    destruct (find _ (all_props c)); [reflexivity|]. destruct asc; [|reflexivity].
    destruct c'. exact E.
Qed.

Theorem cyclic_lookup_never_returns :
  forall h c name private,
    (forall r, u_lower (u_lower r) = u_lower r) ->
    (forall c', clos_refl_trans _ (superclass h) c c' ->
       Forall (fun d => named name d = false) (all_members c') /\ exists c'', superclass h c' c'') ->
    forall r, ~ finds_member h c name private r.
Proof.
  intros h c name private LL K r [f E]. revert c private K E. induction f as [|f IH]; intros c private K E; [discriminate|].
  destruct (K c (rt_refl _ _ _)) as [N [c' S]].
  assert (F : find (named name) (searched c private) = None).
  { assert (G : forall l, Forall (fun d => named name d = false) l -> find (named name) l = None).
    { induction 1 as [|d l D _ G]; cbn; [reflexivity|]. now rewrite D. }
    apply G. destruct private; [exact N|]. unfold searched, open_members, all_members in *.
    destruct (snd c) as [ss|]; [|constructor]. apply Forall_forall. intros d I.
    apply in_flat_map in I. destruct I as (s & I & D). apply filter_In in I.
    eapply Forall_forall in N; [exact N|]. apply in_flat_map. exists s. tauto. }
  cbn [find_member] in E. rewrite (find_in_class LL), F in E. cbn [lift] in E.
  pose proof S as P. apply superclass_parent in P. rewrite P in E. destruct c' as [her' mem'].
  apply (IH (her', mem') false); [|exact E].
  intros c'' R. apply K. eapply rt_trans; [apply rt_step; exact S|exact R].
Qed.

(** ** Property chains *)

Lemma chain_spine p l : chain p l -> exists l', l = p :: l' /\
  match pparent p with None => l' = [] | Some q => chain q l' end.
Proof. destruct 1 as [p E|p q l E C]; eexists; (split; [reflexivity|]); rewrite E; auto. Qed.

Lemma nearest_over {A} (f : cprop -> option A) p l r : nearest f l r -> nearest f (p :: l) (over (f p) r).
Proof.
  intros N. destruct (f p) as [a|] eqn:E.
  - exact (nr_some f [] p l a (Forall_nil _) E).
  - destruct N as [l N|pre q post a N Q]; cbn [over].
    + constructor. now constructor.
    + change (p :: pre ++ q :: post) with ((p :: pre) ++ q :: post). constructor; [now constructor|exact Q].
Qed.
Lemma nearest_one {A} (f : cprop -> option A) p : nearest f [p] (f p).
Proof.
  destruct (f p) as [a|] eqn:E; [exact (nr_some f [] p [] a (Forall_nil _) E)|constructor; now constructor].
Qed.

Theorem computed_property_merges :
  forall p l, chain p l ->
    nearest pinterface l (pinterface (computed_property p)) /\
    nearest pindex l (pindex (computed_property p)) /\
    nearest pread l (pread (computed_property p)) /\
    nearest pwrite l (pwrite (computed_property p)) /\
    nearest pstored l (pstored (computed_property p)) /\
    nearest pdefault l (pdefault (computed_property p)) /\
    nearest pimplements l (pimplements (computed_property p)) /\
    pparent (computed_property p) = None /\
    exists front root, l = front ++ [root] /\ prop_ident (computed_property p) = prop_ident root.
Proof.
  intros p l C. induction C as [p E|p q l E C IH].
  - destruct p as [i a b c d e f g par]. cbn [pparent] in E. subst par. cbn [computed_property].
    repeat split; try apply nearest_one. exists [], (ClassProp i a b c d e f g None). split; reflexivity.
  - destruct p as [i a b c d e f g par]. cbn [pparent] in E. subst par. cbn [computed_property].
    destruct (computed_property q) as [i' a' b' c' d' e' f' g' par'].
    cbn [pinterface pindex pread pwrite pstored pdefault pimplements pparent prop_ident] in *.
    destruct IH as (I1 & I2 & I3 & I4 & I5 & I6 & I7 & I8 & front & root & I9 & I10).
    repeat split;
      try match goal with |- nearest ?f (?x :: _) (over _ _) => apply (nearest_over f x); assumption end.
    + exact I8.
    + exists (ClassProp i a b c d e f g (Some q) :: front), root. subst l. split; [reflexivity|exact I10].
Qed.

Lemma nearest_fun {A} (f : cprop -> option A) l r r' : nearest f l r -> nearest f l r' -> r = r'.
Proof.
  intros N M. revert r' M. induction N as [l N|pre p post a N P]; intros r' M.
  - destruct M as [l M|pre p post a M P]; [reflexivity|].
    apply Forall_app in N. destruct N as [_ N]. apply Forall_inv in N. congruence.
  - induction pre as [|x pre IH]; inversion M as [l M'|pre' p' post' a' M' P' E]; subst.
    + apply Forall_inv in M'. congruence.
    + destruct pre' as [|y pre']; cbn in E; injection E as E1 E2; subst.
      * congruence.
      * apply Forall_inv in M'. congruence.
    + apply (Forall_app _ (x :: pre)) in M'. destruct M' as [_ M']. apply Forall_inv in M'. congruence.
    + destruct pre' as [|y pre']; cbn in E; injection E as E1 E2; subst.
      * apply Forall_inv in N. congruence.
      * apply IH; [now apply Forall_inv_tail in N|]. rewrite <- E2. constructor; [now apply Forall_inv_tail in M'|exact P'].
Qed.

Theorem chain_exists :
  forall p, exists l, chain p l.
Proof.
  fix IH 1. intros [i a b c d e f g [q|]].
  - destruct (IH q) as [l C]. eexists. eapply ch_over; [reflexivity|exact C].
  - eexists. apply ch_root. reflexivity.
Qed.

Definition gives {A} (f : cprop -> option A) (p : cprop) : Prop := f p <> None.
Theorem inherits_from_spec :
  forall p q l, chain q l ->
    (inherits_from p (Some q) = true <->
     (pinterface p = None /\ Exists (fun x => pinterface x <> None) l) \/
     (pindex p = None /\ Exists (fun x => pindex x <> None) l) \/
     (pread p = None /\ Exists (fun x => pread x <> None) l) \/
     (pwrite p = None /\ Exists (fun x => pwrite x <> None) l)) /\
    inherits_from p None = false.
Proof.
  intros p q l C. split; [|reflexivity].
  apply computed_property_merges in C. destruct C as (I1 & I2 & I3 & I4 & _).
  assert (K : forall A (f : cprop -> option A) r, nearest f l r ->
    (missing r (f p) = true <-> f p = None /\ Exists (fun x => f x <> None) l)).
  { intros A f r N. destruct N as [l0 N|pre x post a N X]; unfold missing.
    - split; [destruct (f p); discriminate|]. intros [_ E]. apply Exists_exists in E. destruct E as (x & I & X).
      eapply Forall_forall in N; [|exact I]. contradiction.
    - destruct (f p); split; try discriminate; try (intros [? ?]; congruence).
      + intros _. split; [reflexivity|]. apply Exists_app. right. constructor. congruence. }
  unfold inherits_from. destruct (computed_property q) as [i' a' b' c' d' e' f' g' par'].
  pose proof (K _ _ _ I1) as K1. pose proof (K _ _ _ I2) as K2.
  pose proof (K _ _ _ I3) as K3. pose proof (K _ _ _ I4) as K4.
  destruct p as [i a b c d e f g par]. cbn [pinterface pindex pread pwrite] in *.
  rewrite !orb_true_iff. tauto.
Qed.

End WithUnicode.
