(** The names of the units of a program, in its block. *)
From Coq Require Import String List Arith NArith Bool Lia Permutation.
From Verif Require Import ListUtil Runes UnicodeFacts Token Tokenizer LexSpec LexShape LexFacts LexMain Ext ExtMain Ast Heap Classes MapSpec MapFacts MapMain Prog Parser ParseSpec RunFacts
  ExprSpec WpFacts ExprFacts StmtSpec GrowFacts StmtFacts EvolveFacts EvolveParse Units UnitSpec SortMain UsesMain TermUnitSpec DeclSpec ScopeFacts DeclFacts TypeFacts SectionFacts DeclMain TermUnit TermProgram UnitTextSpec UnitTextFacts UnitBodyFacts UnitTextMain ProgramTextSpec ProgramTextFacts ProgramLinkFacts ProgramPassFacts.
Import ListNotations.
Local Open Scope list_scope.
Local Open Scope prog_scope.

Section WithUnicode.
Context {U : Unicode} {UOK : UnicodeOk U}.
Notation words := (list (ttype * gostring)).

Lemma same_sym n n' : same_name n n' -> same_name n' n.
Proof. intros S. symmetry. exact S. Qed.
Lemma same_trans n n' n2 : same_name n n' -> same_name n' n2 -> same_name n n2.
Proof. unfold same_name. congruence. Qed.
Lemma declare_unit_same n n' sc : same_name n n' -> scope_le (declare_unit n' sc) (declare_unit n sc).
Proof.
  intros S. assert (X : forall m, ~ same_name m n' -> ~ same_name m n) by (intros m N T; apply N; eapply same_trans; eauto).
  assert (Y : forall m, same_name m n' -> same_name m n) by (intros m T; eapply same_trans; [exact T|now apply same_sym]).
  unfold scope_le, declare_unit. cbn [known free undeclared ordinal names plain_name type_name member a_label no_label].
  repeat match goal with |- _ /\ _ => split end; try (intros m [H N]; auto; fail).
  - intros m x (d & d' & M & N). exists d, d'. auto.
  - intros m [H|H]; auto.
Qed.
Lemma find_at h at_ all v u n : called at_ all h -> distinct_names (map us_name all) -> In (v, u) (combine at_ all) -> same_name n (us_name u) ->
  find_name (unit_name h) at_ n = Some v.
Proof.
  unfold called, distinct_names. intros C. induction C as [|v1 u1 l1 l2 E C IH]; intros D J S; [destruct J|]. cbn [map] in D. apply NoDup_cons_iff in D as [Nd D].
  cbn [find_name]. rewrite E. destruct J as [[= -> ->]|J].
  - replace (runes_equal (to_lower (us_name u)) (to_lower n)) with true by (symmetry; apply runes_equal_eq; symmetry; exact S). reflexivity.
  - destruct (runes_equal (to_lower (us_name u1)) (to_lower n)) eqn:Er; [|now apply IH]. apply runes_equal_eq in Er. destruct Nd. rewrite Er. unfold same_name in S. rewrite S.
    apply in_map. apply in_map. eapply in_combine_r; eauto.
Qed.
Lemma find_item h us l n : listed h us l -> (exists i, In i l /\ same_name (fst i) n) ->
  exists a i o, find_name (uses_name h) us n = Some a /\ In (a, i) (combine us l) /\ nth_error (h_uses h) a = Some o /\
    i_name (u_ident o) = fst i /\ u_path o = snd i /\ same_name (fst i) n.
Proof.
  induction 1 as [|a i us l (o & Eo & N & P) Li IH]; intros (j & J & S); [destruct J|]. cbn [find_name combine]. unfold uses_name at 1. rewrite Eo, N.
  destruct (runes_equal (to_lower (fst i)) (to_lower n)) eqn:Er.
  - apply runes_equal_eq in Er. exists a, i, o. split; [reflexivity|]. split; [now left|]. auto.
  - destruct J as [<-|J]; [exfalso; unfold same_name in S; rewrite S, runes_equal_refl in Er; discriminate|].
    destruct IH as (a' & i' & o' & E & J' & X); [eauto|]. exists a', i', o'. split; [exact E|]. split; [now right|exact X].
Qed.
(** A declaration put into a map that does not have it *)
Definition put_one (h : heap) (a : nat) (m : mapobj) (i : ident) (x : dnode) : heap :=
  with_maps (set_nth a (mput (to_lower (i_name i)) (Some (Ptr (length (h_decls h)))) m) (h_maps h)) (with_decls (h_decls h ++ [mkDecl i x]) h).
Lemma set_one h a m i x : nth_error (h_maps h) a = Some m -> mget (to_lower (i_name i)) m = None -> map_set h (DImpl a) [mkDecl i x] = SOk (put_one h a m i x).
Proof.
  intros E G. unfold map_set, alloc_decls. cbn [length seq map combine d_ident dset impl_set]. cbn [h_maps with_decls]. rewrite E. unfold regularize. rewrite G. reflexivity.
Qed.
Lemma put_one_frame h a m i x : nth_error (h_maps h) a = Some m -> frame (eq a) nobody_at nobody_at h (put_one h a m i x).
Proof.
  intros E. constructor; cbn [put_one with_maps with_decls h_uses h_units h_progs h_decls h_maps h_ctxs]; auto.
  - intros b o Eb. exists o. auto.
  - intros b o Eb. exists o. auto.
  - eexists. reflexivity.
  - intros b mb Eb. destruct (Nat.eq_dec a b) as [<-|N].
    + rewrite nth_set_nth_eq by (eapply nth_lt; eauto). eexists. split; [reflexivity|]. split; [intros X; now destruct X|]. rewrite E in Eb. injection Eb as <-. apply keeps_put.
    + rewrite nth_set_nth_neq by exact N. exists mb. split; [exact Eb|]. split; [auto|apply keeps_refl].
  - rewrite set_nth_length. reflexivity.
  - intros c o p Ec K. eauto.
Qed.

(** ** The names in the uses clause *)
Section Naming.
Context (at_ : list nat) (all : list unit_source) (us : list nat) (l : uses_source) (pc : nat) (s0 : pst) (text : list rune) (ws : words)
  (cx : list ctxobj) (um : nat) (k : ckind) (q : option gostring) (tl : list dmap).
(** As if the context of the program had the map already *)
Definition seen (h : heap) : pst := with_heap (with_ctxs cx h) s0.
Hypothesis Hpc : s_ctx s0 = pc.
Hypothesis Hcx : nth_error cx pc = Some (mkCtx k q (DComposite (DImpl um :: tl))).
Hypothesis Hd : distinct_names (map us_name all).
Definition item_of (h : heap) (v : nat) (u : unit_source) : Prop := exists a i o, In (a, i) (combine us l) /\ nth_error (h_uses h) a = Some o /\ u_unit o = Some v /\
  same_name (fst i) (us_name u) /\ forall x, same_name x (us_name u) -> exists d, resolves (with_ctxs cx h) pc x d (NUses a).
Lemma seen_kind h sc : in_scope text sc (seen h) ws -> forall p, k <> KStack p.
Proof.
  intros I. destruct (sc_context _ _ _ _ I) as (o1 & Eo1 & K). unfold seen in Eo1. cbn [with_heap s_heap s_ctx] in Eo1. rewrite Hpc in Eo1. cbn [h_ctxs with_ctxs] in Eo1.
  rewrite Hcx in Eo1. injection Eo1 as <-. exact K.
Qed.
Lemma seen_get h h' n : (forall p, k <> KStack p) -> h_maps h' = h_maps h -> ctx_get (with_ctxs cx h') pc n = ctx_get (with_ctxs cx h) pc n.
Proof.
  intros K E. rewrite (ctx_get_plain (with_ctxs cx h') pc _ n Hcx K), (ctx_get_plain (with_ctxs cx h) pc _ n Hcx K). apply dget_same_maps. exact E.
Qed.
Lemma named_one h sc a i o v u : in_scope text sc (seen h) ws -> called at_ all h -> at_there at_ h -> fits at_ h -> listed h us l ->
  In (v, u) (combine at_ all) -> nth_error (h_uses h) a = Some o -> i_name (u_ident o) = fst i -> In (a, i) (combine us l) ->
  same_name (fst i) (us_name u) -> free sc (us_name u) ->
  exists h2, map_set (uses_put_unit h a v) (DImpl um) [mkDecl (u_ident o) (NUses a)] = SOk h2 /\
    frame (eq um) nobody_at nobody_at h h2 /\ fits at_ h2 /\ h_units h2 = h_units h /\ h_ctxs h2 = h_ctxs h /\ h_progs h2 = h_progs h /\
    length (h_maps h2) = length (h_maps h) /\
    in_scope text (declare_unit (us_name u) sc) (seen h2) ws /\ item_of h2 v u /\
    (forall n e x, ~ same_name n (us_name u) -> resolves (with_ctxs cx h) pc n e x -> resolves (with_ctxs cx h2) pc n e x).
Proof.
  intros I C T Ft Li J Eo No Ji Sn Fr. assert (K : forall p, k <> KStack p) by exact (seen_kind h sc I). pose proof (find_at h at_ all v u (fst i) C Hd J Sn) as Fv.
  assert (La : a < length (h_uses h)) by (eapply nth_lt; eauto).
  set (o1 := mkUses (u_ident o) (u_path o) (Some v)). set (h1 := with_uses (set_nth a o1 (h_uses h)) h).
  assert (E1 : uses_put_unit h a v = h1) by (unfold uses_put_unit; now rewrite Eo).
  assert (F1 : frame nobody_at nobody_at nobody_at h h1).
  { apply uses_frame. intros b ob Eb. destruct (Nat.eq_dec a b) as [<-|Nb].
    - rewrite nth_set_nth_eq by exact La. exists o1. rewrite Eo in Eb. injection Eb as <-. split; [reflexivity|]. split; [reflexivity|]. split; [reflexivity|].
      destruct (u_unit o) as [w|] eqn:Uo; [right|now left]. apply (Ft a o w Eo) in Uo. rewrite No in Uo. cbn. congruence.
    - rewrite nth_set_nth_neq by auto. exists ob. auto 10. }
  assert (Ft1 : fits at_ h1).
  { intros b ob w Eb Ub. cbn [h1 h_uses with_uses] in Eb. change (unit_name h1) with (unit_name h). destruct (Nat.eq_dec a b) as [<-|Nb].
    - rewrite nth_set_nth_eq in Eb by exact La. injection Eb as <-. cbn in *. rewrite No. congruence.
    - rewrite nth_set_nth_neq in Eb by auto. eapply Ft; eauto. }
  assert (I1 : in_scope text sc (seen h1) ws).
  { eapply (in_scope_ns text sc (seen h)); [exact I|reflexivity|reflexivity|reflexivity|reflexivity| |apply stands_heap; exact (sc_stands _ _ _ _ I)].
    intros x mp n d NM G. destruct (better_frame _ _ _ h h1 F1 ltac:(intros ? ? []) ltac:(auto) x mp n d) as (mp' & d' & NM' & G').
    - destruct x; exact NM.
    - rewrite <- G. now apply dget_same_maps.
    - exists mp', d'. split; [destruct x; exact NM'|]. rewrite <- G'. now apply dget_same_maps. }
  assert (V : vacant (with_ctxs cx h1) pc (us_name u)) by (pose proof (sc_free _ _ _ _ I1 _ Fr) as V; unfold seen in V; cbn [with_heap s_heap s_ctx] in V; now rewrite Hpc in V).
  destruct V as (oc & um' & m & Ec & Et & Em & Gm). cbn [h_ctxs with_ctxs] in Ec. rewrite Hcx in Ec. injection Ec as <-. cbn in Et. injection Et as <-. cbn [h_maps with_ctxs] in Em.
  assert (Gi : mget (to_lower (i_name (u_ident o))) m = None) by (rewrite No; unfold same_name in Sn; now rewrite Sn).
  pose proof (set_one h1 um m (u_ident o) (NUses a) Em Gi) as Es. set (h2 := put_one h1 um m (u_ident o) (NUses a)) in *.
  pose proof (put_one_frame h1 um m (u_ident o) (NUses a) Em) as F2. fold h2 in F2.
  destruct (set_core (seen h1) [mkDecl (u_ident o) (NUses a)]) as (hv & Rv & Fv2).
  { apply I1. }
  { constructor; [|constructor]. unfold seen. cbn [with_heap s_heap s_ctx]. rewrite Hpc. exists (mkCtx k q (DComposite (DImpl um :: tl))), um, m. auto. }
  { discriminate. }
  { cbn. constructor; [intros []|constructor]. }
  assert (hv = with_ctxs cx h2) as ->.
  { unfold set in Rv. cbn [run seen with_heap s_heap s_ctx] in Rv. rewrite Hpc in Rv. unfold ctx_set in Rv. cbn [h_ctxs with_ctxs] in Rv. rewrite Hcx in Rv. cbn [cx_map] in Rv.
    change (map_set (with_ctxs cx h1) (DComposite (DImpl um :: tl))) with (map_set (with_ctxs cx h1) (DImpl um)) in Rv.
    rewrite (set_one (with_ctxs cx h1) um m (u_ident o) (NUses a) Em Gi) in Rv.
    apply (f_equal (fun o => match o with OOk _ s => Some (s_heap s) | _ => None end)) in Rv. cbn [with_heap s_heap] in Rv. injection Rv as <-. reflexivity. }
  pose proof (in_scope_unit text _ _ _ _ _ _ I1 Fv2) as I2. rewrite No in I2.
  exists h2. rewrite E1. split; [exact Es|]. split; [|split; [|split; [reflexivity|split; [reflexivity|split; [reflexivity|split; [|split; [|split]]]]]]].
  - eapply frame_trans; [eapply (frame_weak _ _ _ (eq um) nobody_at nobody_at); [exact F1|intros ? ? []|intros ? ? []|intros ? ? []]|exact F2|auto|auto|auto].
  - eapply (fits_more at_ _ _ _ h1 h2 []); [exact F2|exact T|rewrite app_nil_r; reflexivity|constructor|exact Ft1].
  - unfold h2, put_one. cbn [h_maps with_maps]. now rewrite set_nth_length.
  - eapply in_scope_le; [apply (declare_unit_same _ _ _ Sn)|]. exact I2.
  - exists a, i, o1. split; [exact Ji|]. split; [cbn; now apply nth_set_nth_eq|]. split; [reflexivity|]. split; [exact Sn|]. intros x Sx.
    destruct (sf_new _ _ _ Fv2 (mkDecl (u_ident o) (NUses a)) x) as (d & G & D); [now left|unfold decl_name; cbn [d_ident]; rewrite No; eapply same_trans; [exact Sx|now apply same_sym]|].
    exists d. unfold seen in G. cbn [with_heap s_ctx] in G. rewrite Hpc in G. split; [exact G|]. eexists. split; [exact D|reflexivity].
  - intros n e x Nn (G & y & D & Y). split.
    + pose proof (sf_get _ _ _ Fv2 n) as X. unfold seen in X. cbn [with_heap s_heap s_ctx] in X. rewrite Hpc in X. rewrite X; [rewrite <- G; apply seen_get; [exact K|reflexivity]|].
      unfold decl_name, keys. cbn [map d_ident In]. intros [Z|[]]. apply Nn. rewrite No in Z. unfold same_name in *. congruence.
    + exists y. split; [|exact Y]. eapply (deref_frame _ _ _ h1 h2); [exact F2|]. exact D.
Qed.
Lemma resolved_later h h2 n e x : frame (eq um) nobody_at nobody_at h h2 -> ctx_get (with_ctxs cx h2) pc n = ctx_get (with_ctxs cx h) pc n ->
  resolves (with_ctxs cx h) pc n e x -> resolves (with_ctxs cx h2) pc n e x.
Proof.
  intros F E (G & y & D & Y). split; [now rewrite E|]. exists y. split; [|exact Y]. eapply (deref_frame _ _ _ h h2); [exact F|]. exact D.
Qed.
Lemma names_units vs : forall xs h sc, Forall2 (fun v u => In (v, u) (combine at_ all)) vs xs -> distinct_names (map us_name xs) ->
  Forall (free sc) (map us_name xs) -> Forall (fun u => exists i, In i l /\ same_name (fst i) (us_name u)) xs ->
  in_scope text sc (seen h) ws -> called at_ all h -> at_there at_ h -> fits at_ h -> listed h us l ->
  exists h2, name_units us (DImpl um) vs h = ROk tt h2 /\
    frame (eq um) nobody_at nobody_at h h2 /\ fits at_ h2 /\ h_units h2 = h_units h /\ h_ctxs h2 = h_ctxs h /\ h_progs h2 = h_progs h /\
    length (h_maps h2) = length (h_maps h) /\
    in_scope text (declare_units (map us_name xs) sc) (seen h2) ws /\ Forall2 (item_of h2) vs xs /\
    (forall n e x, Forall (fun u => ~ same_name n (us_name u)) xs -> resolves (with_ctxs cx h) pc n e x -> resolves (with_ctxs cx h2) pc n e x).
Proof.
  induction vs as [|v vs IH]; intros xs h sc Fp D Fr It I C T Ft Li; inversion Fp as [|? u ? xs' J Fp']; subst.
  - exists h. cbn [name_units map declare_units fold_left]. split; [reflexivity|]. split; [apply frame_refl|]. split; [exact Ft|]. repeat (split; [reflexivity|]). split; [exact I|]. split; [constructor|auto].
  - cbn [map] in D, Fr. unfold distinct_names in D. cbn [map] in D. apply NoDup_cons_iff in D as [Nd D]. apply Forall_cons_iff in Fr as [Fu Fr]. apply Forall_cons_iff in It as [Iu It].
    assert (Nu : forall x, In x xs' -> ~ same_name (us_name x) (us_name u)).
    { intros x Jx S. apply Nd. unfold same_name in S. rewrite <- S. apply in_map, in_map. exact Jx. }
    assert (Ev : unit_name h v = us_name u) by (clear -C J; unfold called in C; induction C as [|? ? ? ? E C IH]; [destruct J|destruct J as [[= -> ->]|J]; auto]).
    destruct (find_item h us l (us_name u) Li Iu) as (a & i & o & Ea & Ji & Eo & No & Po & Sn).
    destruct (named_one h sc a i o v u I C T Ft Li J Eo No Ji Sn Fu) as (h1 & R1 & F1 & Ft1 & U1 & X1 & P1 & L1 & I1 & It1 & Rs1).
    destruct (IH xs' h1 (declare_unit (us_name u) sc)) as (h2 & R2 & F2 & Ft2 & U2 & X2 & P2 & L2 & I2 & It2 & Rs2); auto.
    { rewrite Forall_forall in Fr |- *. intros n Jn. cbn [declare_unit free]. split; [now apply Fr|]. apply in_map_iff in Jn as (x & <- & Jx). now apply Nu. }
    { eapply called_frame; eauto. }
    { eapply at_frame; eauto. }
    { exact (listed_frame _ _ _ _ _ (Some us) (Some l) F1 Li). }
    assert (Eo1 : nth_error (h_uses (uses_put_unit h a v)) a = Some (mkUses (u_ident o) (u_path o) (Some v))).
    { unfold uses_put_unit. rewrite Eo. cbn. apply nth_set_nth_eq. eapply nth_lt; eauto. }
    exists h2. cbn [name_units]. rewrite Ev, Ea, Eo1. cbn [u_ident]. rewrite R1. split; [exact R2|].
    split; [eapply frame_trans; [exact F1|exact F2|auto|auto|auto]|]. split; [exact Ft2|]. split; [congruence|]. split; [congruence|]. split; [congruence|]. split; [congruence|].
    split; [exact I2|]. split.
    + constructor; [|exact It2]. destruct It1 as (a1 & i1 & oa & B1 & B2 & B3 & B4 & B5). destruct (fr_uses _ _ _ _ _ F2 a1 oa B2) as (oa' & C1 & C2 & C3 & C4).
      exists a1, i1, oa'. split; [exact B1|]. split; [exact C1|]. split; [destruct C4; congruence|]. split; [exact B4|]. intros x Sx. destruct (B5 x Sx) as (d & Rd). exists d. apply Rs2; [|exact Rd].
      apply Forall_forall. intros y Jy S. apply (Nu y Jy). eapply same_trans; [apply same_sym; exact S|exact Sx].
    + intros n e x Fn Rn. apply Forall_cons_iff in Fn as [Fn1 Fn]. apply Rs2; auto.
Qed.
End Naming.
End WithUnicode.
