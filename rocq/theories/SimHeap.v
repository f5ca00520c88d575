(** Operations on related heaps. *)
From Coq Require Import String List NArith Bool Arith Lia.
From Verif Require Import Runes Token Tokenizer ListUtil Ast Ext Heap Classes Prog Parser Units CaseSpec SimFacts.
Import ListNotations.
Local Open Scope list_scope.

Section WithUnicode.
Context {U : Unicode} {UOK : UnicodeOk U}.

Lemma deref_sim (h1 h2 : heap) d : norm h1 = norm h2 -> norm (deref h1 d) = norm (deref h2 d).
Proof. intro E. destruct d; [reflexivity|]. apply norm_nth, nh_decls, E. Qed.
Lemma with_decls_sim (h1 h2 : heap) l1 l2 : norm h1 = norm h2 -> norm l1 = norm l2 -> norm (with_decls l1 h1) = norm (with_decls l2 h2).
Proof.
  intros E F. unfold with_decls. rewrite (nh_refs _ _ E), (nh_ctxs _ _ E).
  apply nh_intro; auto using nh_maps, nh_decls, nh_fwds, nh_uses, nh_units, nh_progs.
Qed.
Lemma with_refs_sim (h1 h2 : heap) l : norm h1 = norm h2 -> norm (with_refs l h1) = norm (with_refs l h2).
Proof.
  intros E. unfold with_refs. rewrite (nh_ctxs _ _ E).
  apply nh_intro; auto using nh_maps, nh_decls, nh_fwds, nh_uses, nh_units, nh_progs.
Qed.
Lemma with_fwds_sim (h1 h2 : heap) l1 l2 : norm h1 = norm h2 -> norm l1 = norm l2 -> norm (with_fwds l1 h1) = norm (with_fwds l2 h2).
Proof.
  intros E F. unfold with_fwds. rewrite (nh_refs _ _ E), (nh_ctxs _ _ E).
  apply nh_intro; auto using nh_maps, nh_decls, nh_fwds, nh_uses, nh_units, nh_progs.
Qed.
Lemma with_uses_sim (h1 h2 : heap) l1 l2 : norm h1 = norm h2 -> norm l1 = norm l2 -> norm (with_uses l1 h1) = norm (with_uses l2 h2).
Proof.
  intros E F. unfold with_uses. rewrite (nh_refs _ _ E), (nh_ctxs _ _ E).
  apply nh_intro; auto using nh_maps, nh_decls, nh_fwds, nh_uses, nh_units, nh_progs.
Qed.
Lemma with_units_sim (h1 h2 : heap) l1 l2 : norm h1 = norm h2 -> norm l1 = norm l2 -> norm (with_units l1 h1) = norm (with_units l2 h2).
Proof.
  intros E F. unfold with_units. rewrite (nh_refs _ _ E), (nh_ctxs _ _ E).
  apply nh_intro; auto using nh_maps, nh_decls, nh_fwds, nh_uses, nh_units, nh_progs.
Qed.
Lemma with_progs_sim (h1 h2 : heap) l1 l2 : norm h1 = norm h2 -> norm l1 = norm l2 -> norm (with_progs l1 h1) = norm (with_progs l2 h2).
Proof.
  intros E F. unfold with_progs. rewrite (nh_refs _ _ E), (nh_ctxs _ _ E).
  apply nh_intro; auto using nh_maps, nh_decls, nh_fwds, nh_uses, nh_units, nh_progs.
Qed.
Lemma with_ctxs_sim (h1 h2 : heap) l : norm h1 = norm h2 -> norm (with_ctxs l h1) = norm (with_ctxs l h2).
Proof.
  intros E. unfold with_ctxs. rewrite (nh_refs _ _ E).
  apply nh_intro; auto using nh_maps, nh_decls, nh_fwds, nh_uses, nh_units, nh_progs.
Qed.

(** Declaring *)
Definition set_sim (r1 r2 : sresult) : Prop :=
  match r1, r2 with
  | SOk h1, SOk h2 => norm h1 = norm h2
  | SErr h1 i1, SErr h2 i2 => norm h1 = norm h2 /\ norm i1 = norm i2
  | SPanic, SPanic => True
  | _, _ => False
  end.
Lemma loc_sim i1 i2 : norm i1 = norm i2 ->
  match i_loc i1, i_loc i2 with Some _, Some _ | None, None => True | _, _ => False end.
Proof. intro E. apply (f_equal i_loc) in E. cbn in E. destruct (i_loc i1), (i_loc i2); auto; discriminate. Qed.
Lemma impl_set_sim a ds1 : forall ds2 (h1 h2 : heap), norm ds1 = norm ds2 -> norm h1 = norm h2 ->
  set_sim (impl_set h1 a ds1) (impl_set h2 a ds2).
Proof.
  induction ds1 as [|[i1 d1] ds1 IH]; intros [|[i2 d2] ds2] h1 h2 D E; try discriminate D; [exact E|].
  apply norm_cons in D as [D1 D2]. injection D1 as N1 N2 N3. change (d1 = d2) in N3. subst d2.
  assert (NI : norm i1 = norm i2) by (unfold norm, norm_ident; congruence).
  cbn [impl_set]. rewrite (nh_maps _ _ E). destruct (nth_error (h_maps h2) a) as [m|]; [|exact I].
  unfold regularize. rewrite N1. destruct (mget (to_lower (i_name i2)) m) as [[old|]|]; [|exact I|].
  - pose proof (deref_sim _ _ old E) as DS. pose proof (loc_sim _ _ NI) as L.
    destruct (deref h1 old) as [o1|], (deref h2 old) as [o2|]; try discriminate DS; cbn [option_map].
    + apply norm_some in DS. apply (f_equal d_ident) in DS. pose proof (loc_sim _ _ DS) as L2.
      destruct (i_loc i1), (i_loc i2); try contradiction; [|exact I].
      destruct (i_loc (d_ident o1)), (i_loc (d_ident o2)); try contradiction; [|exact I]. cbn. auto.
    + destruct (i_loc i1), (i_loc i2); try contradiction; exact I.
  - apply IH; auto. now apply with_maps_sim.
Qed.
Fixpoint dset_sim (h1 h2 : heap) (m : dmap) (ds1 ds2 : list (ident * dref))
  (E : norm h1 = norm h2) (D : norm ds1 = norm ds2) {struct m} : set_sim (dset h1 m ds1) (dset h2 m ds2).
Proof.
  destruct m as [a|p a|[|m ms]| |]; cbn [dset]; try exact I.
  - now apply impl_set_sim.
  - now apply impl_set_sim.
  - now apply dset_sim.
  - cbn. auto.
Qed.
Lemma map_set_sim (h1 h2 : heap) m ds1 ds2 : norm h1 = norm h2 -> norm ds1 = norm ds2 ->
  set_sim (map_set h1 m ds1) (map_set h2 m ds2).
Proof.
  intros E D. unfold map_set, alloc_decls. apply dset_sim.
  - apply with_decls_sim; auto. apply norm_app; auto. now apply nh_decls.
  - rewrite (norm_length _ _ (nh_decls _ _ E)), (norm_length _ _ D). generalize (length (h_decls h2)) as n, (length ds2) as k.
    revert ds2 D. induction ds1 as [|d1 ds1 IH]; intros [|d2 ds2] D n k; try discriminate D; [reflexivity|].
    apply norm_cons in D as [D1 D2]. destruct k as [|k]; [reflexivity|]. cbn [seq map combine].
    change ((norm (d_ident d1), Ptr n) :: norm (combine (map d_ident ds1) (map Ptr (seq (S n) k))) =
            (norm (d_ident d2), Ptr n) :: norm (combine (map d_ident ds2) (map Ptr (seq (S n) k)))).
    rewrite (IH _ D2). f_equal. f_equal. apply (f_equal d_ident D1).
Qed.
Lemma ctx_set_sim (h1 h2 : heap) c ds1 ds2 : norm h1 = norm h2 -> norm ds1 = norm ds2 ->
  set_sim (ctx_set h1 c ds1) (ctx_set h2 c ds2).
Proof.
  intros E D. unfold ctx_set. rewrite (nh_ctxs _ _ E). destruct (nth_error (h_ctxs h2) c); [|exact I]. now apply map_set_sim.
Qed.
Lemma impl_overwrite_sim (h1 h2 : heap) a n1 n2 d : norm h1 = norm h2 -> to_lower n1 = to_lower n2 ->
  norm (impl_overwrite h1 a n1 d) = norm (impl_overwrite h2 a n2 d).
Proof.
  intros E L. unfold impl_overwrite, regularize. rewrite (nh_maps _ _ E), L. destruct (nth_error (h_maps h2) a); [|reflexivity].
  apply (f_equal Some). now apply with_maps_sim.
Qed.
Fixpoint doverwrite_sim (h1 h2 : heap) (m : dmap) n1 n2 d (E : norm h1 = norm h2) (L : to_lower n1 = to_lower n2) {struct m} :
  norm (doverwrite h1 m n1 d) = norm (doverwrite h2 m n2 d).
Proof.
  destruct m as [a|p a|[|m ms]| |]; cbn [doverwrite]; try reflexivity.
  - now apply impl_overwrite_sim.
  - now apply impl_overwrite_sim.
  - now apply doverwrite_sim.
  - now apply (f_equal Some).
Qed.
Lemma ctx_overwrite_sim (h1 h2 : heap) c n1 n2 d : norm h1 = norm h2 -> to_lower n1 = to_lower n2 ->
  norm (ctx_overwrite h1 c n1 d) = norm (ctx_overwrite h2 c n2 d).
Proof.
  intros E L. unfold ctx_overwrite. rewrite (nh_ctxs _ _ E). destruct (nth_error (h_ctxs h2) c); [|reflexivity]. now apply doverwrite_sim.
Qed.

(** Types *)
Lemma ref_of_sim (h1 h2 : heap) t1 t2 : norm h1 = norm h2 -> norm t1 = norm t2 -> ref_of h1 t1 = ref_of h2 t2.
Proof. intros E T. unfold ref_of. rewrite (nh_refs _ _ E). now rewrite (f_equal ti_ref T : ti_ref t1 = ti_ref t2). Qed.
Lemma ref_type_sim (h1 h2 : heap) t1 t2 : norm h1 = norm h2 -> norm t1 = norm t2 -> norm (ref_type h1 t1) = norm (ref_type h2 t2).
Proof.
  intros E T. unfold ref_type. rewrite (ref_of_sim _ _ _ _ E T). destruct (ref_of h2 t2) as [d|]; [|reflexivity].
  pose proof (deref_sim _ _ d E) as DS. destruct (deref h1 d) as [o1|], (deref h2 d) as [o2|]; try discriminate DS; [|reflexivity].
  apply norm_some in DS. apply (f_equal d_node) in DS. cbn in DS.
  destruct (d_node o1), (d_node o2); try discriminate DS; try reflexivity. injection DS as DS. now apply (f_equal Some).
Qed.
Lemma type_is_sim q f1 : forall f2 (h1 h2 : heap) t1 t2 b, f1 <= f2 -> norm h1 = norm h2 -> norm t1 = norm t2 ->
  type_is f1 h1 q t1 = Some b -> type_is f2 h2 q t2 = Some b.
Proof.
  induction f1 as [|f1 IH]; intros f2 h1 h2 t1 t2 b L E T; [discriminate|]. destruct f2 as [|f2]; [lia|].
  cbn [type_is].
  destruct t1, t2; try discriminate T; auto.
  - assert (T' : norm t = norm t0) by (change (TId (norm t) = TId (norm t0)) in T; congruence). clear T. rename T' into T.
    pose proof (ref_type_sim _ _ _ _ E T) as RS.
    destruct (ref_type h1 t), (ref_type h2 t0); try discriminate RS; auto. apply IH; auto; [lia|now apply norm_some].
  - now injection T as -> _.
  - injection T as -> T. destruct q; auto; apply IH; auto; lia.
  - assert (T' : norm t = norm t0) by (change (TFile packed (norm t) = TFile packed0 (norm t0)) in T; congruence). clear T. rename T' into T.
    pose proof (ref_type_sim _ _ _ _ E T) as RS.
    destruct (ref_type h1 t), (ref_type h2 t0); try discriminate RS; auto. apply IH; auto; [lia|now apply norm_some].
Qed.

(** Classes *)
Lemma parent_class_sim (h1 h2 : heap) her1 her2 : norm h1 = norm h2 -> norm her1 = norm her2 ->
  norm (parent_class h1 her1) = norm (parent_class h2 her2).
Proof.
  intros E T. unfold parent_class. destruct her1 as [[|p1 l1]|], her2 as [[|p2 l2]|]; try discriminate T; auto.
  apply norm_some, norm_cons in T as [T _]. pose proof (ref_type_sim _ _ _ _ E T) as RS.
  destruct (ref_type h1 p1) as [t1|], (ref_type h2 p2) as [t2|]; try discriminate RS; auto.
  apply norm_some in RS. destruct t1, t2; try discriminate RS; try reflexivity. injection RS as R1 R2.
  change (Some (norm heritage, norm members) = Some (norm heritage0, norm members0)). f_equal. f_equal; [exact R1|exact R2].
Qed.
Lemma find_name_sim {A} {NA : Norm A} (nm : A -> gostring) (N : forall a b, norm a = norm b -> to_lower (nm a) = to_lower (nm b))
  l1 : forall l2 n1 n2, norm l1 = norm l2 -> to_lower n1 = to_lower n2 -> norm (find_name nm l1 n1) = norm (find_name nm l2 n2).
Proof.
  induction l1 as [|a l1 IH]; intros [|b l2] n1 n2 L E; try discriminate L; [reflexivity|].
  apply norm_cons in L as [L1 L2]. cbn [find_name]. rewrite (N _ _ L1), E. destruct (runes_equal _ _); [now apply (f_equal Some)|auto].
Qed.
Lemma idents_find_sim l1 l2 kw : norm l1 = norm l2 -> norm (ident_list_find l1 kw) = norm (ident_list_find l2 kw).
Proof. intro L. apply find_name_sim; auto. apply norm_name. Qed.
Lemma decls_find_sim l1 l2 kw : norm l1 = norm l2 -> norm (decls_find l1 kw) = norm (decls_find l2 kw).
Proof. intro L. apply find_name_sim; auto. intros a b E. apply norm_name, (f_equal d_ident E). Qed.
Lemma decls_of_sim l1 : forall l2 n, norm l1 = norm l2 ->
  norm (map (fun i => mkDecl i n) l1) = norm (map (fun i => mkDecl i n) l2).
Proof.
  induction l1 as [|a l1 IH]; intros [|b l2] n L; try discriminate L; [reflexivity|]. apply norm_cons in L as [L1 L2].
  cbn [map]. change (norm (mkDecl a n) :: norm (map (fun i => mkDecl i n) l1) = norm (mkDecl b n) :: norm (map (fun i => mkDecl i n) l2)).
  rewrite (IH l2 n L2). f_equal. unfold norm at 1 2, norm_decl. cbn. now rewrite L1.
Qed.
Lemma find_field_sim (fs1 : list (list ident * typ)) : forall fs2 kw, norm fs1 = norm fs2 -> norm (find_field fs1 kw) = norm (find_field fs2 kw).
Proof.
  induction fs1 as [|[ids1 t1] fs1 IH]; intros [|[ids2 t2] fs2] kw F; try discriminate F; [reflexivity|].
  apply norm_cons in F as [F1 F2]. injection F1 as F1 _. cbn [find_field].
  pose proof (idents_find_sim _ _ kw F1) as I. destruct (ident_list_find ids1 kw), (ident_list_find ids2 kw); try discriminate I; auto.
  apply (f_equal Some). now apply decls_find_sim, decls_of_sim.
Qed.
Lemma one_decl i1 i2 n : norm i1 = norm i2 -> norm [mkDecl i1 n] = norm [mkDecl i2 n].
Proof. intro E. apply (decls_of_sim [i1] [i2]). change (norm i1 :: [] = norm i2 :: []). now rewrite E. Qed.
Lemma method_ident_sim m1 m2 : norm m1 = norm m2 -> norm (method_ident m1) = norm (method_ident m2).
Proof.
  destruct m1 as [[[f1 i1 p1 r1]|i1 p1|i1] d1], m2 as [[[f2 i2 p2 r2]|i2 p2|i2] d2]; intro E; try discriminate E; injection E; intros;
    unfold method_ident, norm, norm_ident; congruence.
Qed.
Lemma find_method_sim (ms1 : list cmethod) : forall ms2 kw, norm ms1 = norm ms2 -> norm (find_method ms1 kw) = norm (find_method ms2 kw).
Proof.
  induction ms1 as [|m1 ms1 IH]; intros [|m2 ms2] kw F; try discriminate F; [reflexivity|].
  apply norm_cons in F as [F1 F2]. apply method_ident_sim in F1. cbn [find_method]. rewrite (norm_name _ _ F1).
  destruct (runes_equal _ kw); auto. apply (f_equal Some). now apply decls_find_sim, one_decl.
Qed.
Lemma prop_ident_sim m1 m2 : norm m1 = norm m2 -> norm (prop_ident m1) = norm (prop_ident m2).
Proof. destruct m1, m2. intro E. injection E. intros. unfold prop_ident, norm, norm_ident. congruence. Qed.
Lemma find_prop_sim (ms1 : list cprop) : forall ms2 kw, norm ms1 = norm ms2 -> norm (find_prop ms1 kw) = norm (find_prop ms2 kw).
Proof.
  induction ms1 as [|m1 ms1 IH]; intros [|m2 ms2] kw F; try discriminate F; [reflexivity|].
  apply norm_cons in F as [F1 F2]. apply prop_ident_sim in F1. cbn [find_prop]. rewrite (norm_name _ _ F1).
  destruct (runes_equal _ kw); auto. apply (f_equal Some). now apply decls_find_sim, one_decl.
Qed.
Lemma prop_in_list_sim (ms1 : list cprop) : forall ms2 kw, norm ms1 = norm ms2 -> norm (prop_in_list ms1 kw) = norm (prop_in_list ms2 kw).
Proof.
  induction ms1 as [|m1 ms1 IH]; intros [|m2 ms2] kw F; try discriminate F; [reflexivity|].
  apply norm_cons in F as [F1 F2]. cbn [prop_in_list]. rewrite (norm_name _ _ (prop_ident_sim _ _ F1)).
  destruct (runes_equal _ kw); auto. now apply (f_equal Some).
Qed.
Lemma csection_inv v1 f1 m1 p1 v2 f2 m2 p2 :
  norm (ClassSection v1 f1 m1 p1) = norm (ClassSection v2 f2 m2 p2) -> v1 = v2 /\ norm f1 = norm f2 /\ norm m1 = norm m2 /\ norm p1 = norm p2.
Proof. intro E. injection E as -> E1 E2 E3. auto. Qed.
Lemma find_in_sections_sim private (ss1 : list csection) : forall ss2 kw, norm ss1 = norm ss2 ->
  norm (find_in_sections private ss1 kw) = norm (find_in_sections private ss2 kw).
Proof.
  induction ss1 as [|[v1 f1 m1 p1] ss1 IH]; intros [|[v2 f2 m2 p2] ss2] kw F; try discriminate F; [reflexivity|].
  apply norm_cons in F as [F1 F2]. apply csection_inv in F1 as (-> & F3 & F4 & F5). cbn [find_in_sections].
  destruct (negb private && is_private v2); auto.
  pose proof (find_field_sim _ _ kw F3) as I. destruct (find_field f1 kw), (find_field f2 kw); try discriminate I; auto. clear I.
  pose proof (find_method_sim _ _ kw F4) as I. destruct (find_method m1 kw), (find_method m2 kw); try discriminate I; auto. clear I.
  pose proof (find_prop_sim _ _ kw F5) as I. destruct (find_prop p1 kw), (find_prop p2 kw); try discriminate I; auto.
Qed.
Lemma prop_in_sections_sim (ss1 : list csection) : forall ss2 kw, norm ss1 = norm ss2 ->
  norm (prop_in_sections ss1 kw) = norm (prop_in_sections ss2 kw).
Proof.
  induction ss1 as [|[v1 f1 m1 p1] ss1 IH]; intros [|[v2 f2 m2 p2] ss2] kw F; try discriminate F; [reflexivity|].
  apply norm_cons in F as [F1 F2]. apply csection_inv in F1 as (-> & F3 & F4 & F5). cbn [prop_in_sections].
  pose proof (prop_in_list_sim _ _ kw F5) as I. destruct (prop_in_list p1 kw), (prop_in_list p2 kw); try discriminate I; auto.
Qed.
Lemma sections_sim m1 m2 : norm m1 = norm m2 -> norm (sections m1) = norm (sections m2).
Proof. destruct m1, m2; intro E; try discriminate E; auto. now apply norm_some. Qed.
Lemma pair_inv {A B} {NA : Norm A} {NB : Norm B} (a1 a2 : A) (b1 b2 : B) : norm (a1, b1) = norm (a2, b2) -> norm a1 = norm a2 /\ norm b1 = norm b2.
Proof. intro E. injection E. auto. Qed.
Lemma find_member_sim f1 : forall f2 (h1 h2 : heap) her1 her2 mem1 mem2 n1 n2 private r1, f1 <= f2 ->
  norm h1 = norm h2 -> norm her1 = norm her2 -> norm mem1 = norm mem2 -> to_lower n1 = to_lower n2 ->
  find_member f1 h1 her1 mem1 n1 private = Some r1 ->
  exists r2, find_member f2 h2 her2 mem2 n2 private = Some r2 /\ norm r1 = norm r2.
Proof.
  induction f1 as [|f1 IH]; intros f2 h1 h2 her1 her2 mem1 mem2 n1 n2 private r1 L E Hr M Nn; [discriminate|].
  destruct f2 as [|f2]; [lia|]. cbn [find_member]. rewrite <- Nn.
  pose proof (find_in_sections_sim private _ _ (to_lower n1) (sections_sim _ _ M)) as I.
  destruct (find_in_sections private (sections mem1) (to_lower n1)), (find_in_sections private (sections mem2) (to_lower n1)); try discriminate I.
  - intros [= <-]. apply norm_some in I. eauto.
  - pose proof (parent_class_sim _ _ _ _ E Hr) as P.
    destruct (parent_class h1 her1) as [[her1' mem1']|], (parent_class h2 her2) as [[her2' mem2']|]; try discriminate P.
    + apply norm_some, pair_inv in P as [P1 P2]. apply IH; auto. lia.
    + intros [= <-]. eauto.
Qed.
Lemma find_property_sim f1 : forall f2 (h1 h2 : heap) her1 her2 mem1 mem2 n1 n2 private r1, f1 <= f2 ->
  norm h1 = norm h2 -> norm her1 = norm her2 -> norm mem1 = norm mem2 -> to_lower n1 = to_lower n2 ->
  find_property f1 h1 her1 mem1 n1 private = Some r1 ->
  exists r2, find_property f2 h2 her2 mem2 n2 private = Some r2 /\ norm r1 = norm r2.
Proof.
  induction f1 as [|f1 IH]; intros f2 h1 h2 her1 her2 mem1 mem2 n1 n2 private r1 L E Hr M Nn; [discriminate|].
  destruct f2 as [|f2]; [lia|]. cbn [find_property]. rewrite <- Nn.
  pose proof (prop_in_sections_sim _ _ (to_lower n1) (sections_sim _ _ M)) as I.
  destruct (prop_in_sections (sections mem1) (to_lower n1)), (prop_in_sections (sections mem2) (to_lower n1)); try discriminate I.
  - intros [= <-]. apply norm_some in I. eexists. split; [reflexivity|]. now apply (f_equal Some).
  - destruct private; [|intros [= <-]; eauto]. pose proof (parent_class_sim _ _ _ _ E Hr) as P.
    destruct (parent_class h1 her1) as [[her1' mem1']|], (parent_class h2 her2) as [[her2' mem2']|]; try discriminate P.
    + apply norm_some, pair_inv in P as [P1 P2]. apply IH; auto. lia.
    + intros [= <-]. eauto.
Qed.
Fixpoint computed_norm (p : cprop) : computed_property (n_cprop p) = n_cprop (computed_property p).
Proof.
  destruct p as [i itf idx rd wr st df im [q|]]; [|reflexivity].
  cbn [computed_property n_cprop option_map]. fold n_cprop. rewrite (computed_norm q). destruct (computed_property q). cbn [n_cprop]. fold n_cprop.
  destruct itf, idx, rd, wr, st, df, im; reflexivity.
Qed.
Lemma missing_norm {A B} {NA : Norm A} {NB : Norm B} (a1 a2 : option A) (b1 b2 : option B) : norm a1 = norm a2 -> norm b1 = norm b2 ->
  missing a1 b1 = missing a2 b2.
Proof. destruct a1, a2, b1, b2; intros E F; try discriminate E; try discriminate F; reflexivity. Qed.
Lemma cprop_inv i1 itf1 idx1 rd1 wr1 st1 df1 im1 par1 i2 itf2 idx2 rd2 wr2 st2 df2 im2 par2 :
  norm (ClassProp i1 itf1 idx1 rd1 wr1 st1 df1 im1 par1) = norm (ClassProp i2 itf2 idx2 rd2 wr2 st2 df2 im2 par2) ->
  norm i1 = norm i2 /\ norm itf1 = norm itf2 /\ norm idx1 = norm idx2 /\ norm rd1 = norm rd2 /\ norm wr1 = norm wr2.
Proof.
  intro E. change (ClassProp (norm i1) (norm itf1) (norm idx1) (norm rd1) (norm wr1) (norm st1) (norm df1) (norm im1) (norm par1) =
    ClassProp (norm i2) (norm itf2) (norm idx2) (norm rd2) (norm wr2) (norm st2) (norm df2) (norm im2) (norm par2)) in E.
  repeat split; congruence.
Qed.
Lemma inherits_sim p1 p2 q1 q2 : norm p1 = norm p2 -> norm q1 = norm q2 -> inherits_from p1 q1 = inherits_from p2 q2.
Proof.
  intros P Q. unfold inherits_from. destruct q1 as [q1|], q2 as [q2|]; try discriminate Q; auto. apply norm_some in Q.
  assert (C : norm (computed_property q1) = norm (computed_property q2)).
  { change (n_cprop (computed_property q1) = n_cprop (computed_property q2)). rewrite <- !computed_norm.
    now rewrite (Q : n_cprop q1 = n_cprop q2). }
  destruct (computed_property q1), (computed_property q2), p1, p2.
  apply cprop_inv in C as (C1 & C2 & C3 & C4 & C5). apply cprop_inv in P as (P1 & P2 & P3 & P4 & P5).
  now rewrite (missing_norm _ _ _ _ C2 P2), (missing_norm _ _ _ _ C3 P3), (missing_norm _ _ _ _ C4 P4), (missing_norm _ _ _ _ C5 P5).
Qed.
End WithUnicode.
